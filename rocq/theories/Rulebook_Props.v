(** C22-C24: ManualRulebook. *)
From Coq Require Import List QArith Bool Arith Lia Lqa.
From Verif Require Import Base Maps Regions_Model Regions_Spec Rulebook_Model Rulebook_Spec Rulebook_Proofs Hierarchy_Proofs.
Import ListNotations.

Notation after h := (act_run step h empty).

(** C23.  Any history (zones with a lane at most once): the rulebook holds the
    contents the history describes; GetRule reads them, Rules lists them once each. *)
Theorem rulebook_refines_contents :
  forall h, (forall o, In o h -> op_rule lanes_once o) ->
  exists c, replay h c /\
    (forall k id, GetRule k id (after h) = match c k id with Some r => Ok r | None => Throw end) /\
    (forall k, NoDup (map fst (Rules (after h) k))) /\
    (forall k id r, In (id, r) (Rules (after h) k) <-> c k id = Some r).
Proof.
  intros h H. exists (content (after h)). split; [exact (replay_run h H)|]. split; [reflexivity|].
  destruct (run_wf h) as [W _]. split; [exact (wf_nd _ W)|]. intros k id r. split.
  - intro I. apply (mfind_nodup Nat.eqb nat_eqb_ok); [apply (wf_nd _ W)|exact I].
  - apply (mfind_in Nat.eqb nat_eqb_ok).
Qed.
Print Assumptions rulebook_refines_contents.

(** C23.  The replayed contents are unique. *)
Theorem rulebook_contents_unique :
  forall h c1 c2, replay h c1 -> replay h c2 -> forall k id, c1 k id = c2 k id.
Proof. intros h c1 c2 H1 H2. exact (replay_functional h c1 H1 c2 H2). Qed.
Print Assumptions rulebook_contents_unique.

(** C23.  Without any condition on zones: a call that returns has its documented
    effect on what GetRule answers, a call that throws changes no answer; adding
    throws exactly when the id is in use among the rules sharing its id space. *)
Theorem rulebook_get_rule_step :
  forall h o, let b := after h in let b' := fst (step o b) in
  (snd (step o b) = true ->
     effect o (fun k id => match GetRule k id b with Ok r => Some r | _ => None end)
              (fun k id => match GetRule k id b' with Ok r => Some r | _ => None end) true) /\
  (snd (step o b) = false -> forall k id, GetRule k id b' = GetRule k id b).
Proof.
  intros h o b b'. destruct (run_wf h) as [W N]. pose proof (step_post o _ W N) as P. subst b b'.
  destruct (step o (after h)) as [b' ok]. cbn [fst snd]. destruct P as (_ & _ & E & F & _).
  assert (G : forall x k id, match GetRule k id x with Ok r => Some r | _ => None end = content x k id).
  { intros x k id. unfold GetRule, content. destruct (mfind Nat.eqb id (rules x k)); reflexivity. }
  split.
  - intro K. specialize (E K).
    inversion E as [k0 r0 c c' H Q|k0 r0 c c' NT Q|a0 id0 c c' H Q|a0 id0 c c' Ab Q|c c' Q]; subst.
    + apply eff_add; [|intros; rewrite !G; auto]. intros (k' & r' & S & T). rewrite G in T. apply H. exists k', r'. auto.
    + apply eff_remove; [|intros; rewrite !G; auto]. destruct H as (k & r & A & B). exists k, r. rewrite G. auto.
    + apply eff_clear. intros; rewrite G; auto.
  - intros K k id. apply GetRule_same. auto.
Qed.
Print Assumptions rulebook_get_rule_step.

Theorem rulebook_add_ok_iff :
  forall h k r, snd (AddRule k r (after h)) = true <->
    forall k', same_space k k' -> GetRule k' (r_id r) (after h) = Throw.
Proof.
  intros h k r. destruct (run_wf h) as [W N]. pose proof (add_post k r _ W N) as P.
  split.
  - intros H k' S. destruct (AddRule k r (after h)) as [b' ok]. cbn in H. subst ok. destruct P as (_ & _ & E & _).
    specialize (E eq_refl). inversion E as [k0 r0 c c' NT Q| | | |]; subst. apply GetRule_absent.
    destruct (content (after h) k' (r_id r)) as [x|] eqn:C; [|reflexivity]. exfalso. apply NT. exists k', x. auto.
  - intro H. unfold AddRule, act_seq, act_check.
    assert (C : match other k with Some k' => negb (mhas Nat.eqb (r_id r) (rules (after h) k')) | None => true end = true).
    { destruct (other k) as [k'|] eqn:O; [|reflexivity]. apply negb_true_iff, mhas_false.
      apply (GetRule_absent (after h)). apply H. destruct (other_alt k k' O). assumption. }
    rewrite C. unfold emplace_rule. pose proof (memplace_spec Nat.eqb nat_eqb_ok (r_id r) r (rules (after h) k)) as M.
    destruct (memplace Nat.eqb (r_id r) r (rules (after h) k)) as [m|].
    + cbn. destruct (index_add_ok (alt_of k, r_id r) (r_zone r) (set_rules k m (after h)) N) as (b' & E & _).
      unfold index_add. rewrite E. reflexivity.
    + exfalso. destruct M as (v & M). assert (GetRule k (r_id r) (after h) = Throw) by (apply H; reflexivity).
      apply GetRule_absent in H0. unfold content in H0. congruence.
Qed.
Print Assumptions rulebook_add_ok_iff.

(** C22.  After any history of calls with valid zones that visit each lane at most
    once, FindRules returns exactly the present rules with a zone range within
    [tol] of a queried range on the same lane, each once. *)
Theorem rulebook_find_rules :
  forall h rs tol, (forall o, In o h -> op_rule lanes_once o) -> (forall o, In o h -> op_rule zone_valid o) ->
  (forall r, In r rs -> lvalid r) -> (0 <= tol)%Q ->
  exists c q, replay h c /\ FindRules (after h) rs tol = Ok q /\ (forall k, NoDup (map fst (q k))) /\
    forall k id r, In (id, r) (q k) <-> c k id = Some r /\ rnear tol (r_zone r) rs.
Proof.
  intros h rs tol H1 H2 H3 H4. destruct (good_run h H1) as (W & N & I & _).
  destruct (FindRules_ok (after h) rs tol W I) as (q & E & ND & M); auto.
  - intros k id r C. apply content_added in C. exact (H2 _ C).
  - exists (content (after h)), q. split; [exact (replay_run h H1)|]. split; [exact E|]. split; [exact ND|].
    intros k id r. rewrite <- M. split.
    + apply (mfind_nodup Nat.eqb nat_eqb_ok). apply ND.
    + apply (mfind_in Nat.eqb nat_eqb_ok).
Qed.
Print Assumptions rulebook_find_rules.

(** C22.  The same for zones of any shape, as long as no call of the history threw. *)
Theorem rulebook_find_rules_no_throw :
  forall h rs tol, all_returned h empty -> (forall o, In o h -> op_rule zone_valid o) ->
  (forall r, In r rs -> lvalid r) -> (0 <= tol)%Q ->
  exists q, FindRules (after h) rs tol = Ok q /\
    forall k id r, In (id, r) (q k) <-> GetRule k id (after h) = Ok r /\ rnear tol (r_zone r) rs.
Proof.
  intros h rs tol H1 H2 H3 H4. destruct (run_wf h) as [W N]. destruct wf_empty as (W0 & N0 & I0).
  pose proof (returned_idx h empty W0 N0 I0 H1) as I.
  destruct (FindRules_ok (after h) rs tol W I) as (q & E & ND & M); auto.
  - intros k id r C. apply content_added in C. exact (H2 _ C).
  - exists q. split; [exact E|]. intros k id r. rewrite GetRule_content, <- M. split.
    + apply (mfind_nodup Nat.eqb nat_eqb_ok). apply ND.
    + apply (mfind_in Nat.eqb nat_eqb_ok).
Qed.
Print Assumptions rulebook_find_rules_no_throw.

Theorem rulebook_find_rules_negative_throws :
  forall h rs tol, (tol < 0)%Q -> FindRules (after h) rs tol = Throw.
Proof.
  intros h rs tol H. unfold FindRules, throw_unless. destruct (Qleb_spec 0 tol) as [K|K]; [lra|reflexivity].
Qed.
Print Assumptions rulebook_find_rules_negative_throws.

(** C24.  Partial: for rules whose zone visits each lane at most once (the missing
    case is refuted below) RemoveRule of a present rule returns; afterwards the
    rule is not found and every other answer is as before. *)
Theorem rulebook_remove_rule_partial :
  forall h k id r, (forall o, In o h -> op_rule lanes_once o) -> (forall o, In o h -> op_rule zone_valid o) ->
  GetRule k id (after h) = Ok r ->
  exists b', RemoveRule (alt_of k) id (after h) = (b', true) /\
    GetRule k id b' = Throw /\
    (forall k' id', (k', id') <> (k, id) -> GetRule k' id' b' = GetRule k' id' (after h)) /\
    forall rs tol q q', (forall x, In x rs -> lvalid x) -> (0 <= tol)%Q ->
      FindRules (after h) rs tol = Ok q -> FindRules b' rs tol = Ok q' ->
      forall k' id' x, In (id', x) (q' k') <-> In (id', x) (q k') /\ (k', id') <> (k, id).
Proof.
  intros h k id r H1 H2 G. pose proof (good_run h H1) as Gd.
  destruct (good_step (Remove (alt_of k) id) (after h) Gd I) as (Gd' & E). cbn [step] in *.
  destruct (RemoveRule (alt_of k) id (after h)) as [b' ok] eqn:ER. cbn [fst snd] in *.
  apply GetRule_content in G.
  assert (ok = true). { inversion E as [| | |a0 id0 c c' Ab Q|]; subst; auto. exfalso. eapply Ab; eauto. }
  subst ok. exists b'. split; [reflexivity|]. inversion E as [| |a0 id0 c c' H H4| |]; subst.
  destruct Gd as (W & N & Ix & _), Gd' as (W' & N' & Ix' & _).
  assert (Hne : forall k' id', (k', id') <> (k, id) -> content b' k' id' = content (after h) k' id').
  { intros k' id' Hne. rewrite H4. destruct (alt_eqb (alt_of k') (alt_of k) && Nat.eqb id' id) eqn:C; [|reflexivity].
    apply andb_true_iff in C. destruct C as [C1 C2]. apply alt_eqb_ok in C1. apply Nat.eqb_eq in C2. subst id'.
    destruct (content (after h) k' id) as [x|] eqn:Cx; [|reflexivity].
    exfalso. apply Hne. f_equal. eapply (wf_one _ W); eauto. }
  assert (Hk : content b' k id = None).
  { rewrite H4, Nat.eqb_refl. replace (alt_eqb (alt_of k) (alt_of k)) with true; [reflexivity|]. symmetry. apply alt_eqb_ok. reflexivity. }
  split; [apply GetRule_absent; exact Hk|]. split; [intros; apply GetRule_same; auto|].
  intros rs tol q q' Vr T Q Q' k' id' x.
  assert (V : forall k id r, content (after h) k id = Some r -> zone_valid r).
  { intros k0 id0 r0 C. apply content_added in C. exact (H2 _ C). }
  assert (V' : forall k id r, content b' k id = Some r -> zone_valid r).
  { intros k0 id0 r0 C. apply (V k0 id0). rewrite H4 in C.
    destruct (alt_eqb (alt_of k0) (alt_of k) && Nat.eqb id0 id); [discriminate|exact C]. }
  destruct (FindRules_ok (after h) rs tol W Ix V Vr T) as (p & P1 & P2 & P3).
  destruct (FindRules_ok b' rs tol W' Ix' V' Vr T) as (p' & P1' & P2' & P3').
  assert (p = q) by congruence. assert (p' = q') by congruence. subst p p'.
  assert (L : forall z, NoDup (map fst z) -> (In (id', x) z <-> mfind Nat.eqb id' z = Some x)).
  { intros z Nz. split; [apply (mfind_nodup Nat.eqb nat_eqb_ok); exact Nz|apply (mfind_in Nat.eqb nat_eqb_ok)]. }
  rewrite (L _ (P2' k')), (L _ (P2 k')), P3, P3'. split.
  - intros [A B]. assert ((k', id') <> (k, id)) by (intro K; inversion K; subst; congruence).
    rewrite Hne in A by assumption. auto.
  - intros [[A B] C]. rewrite Hne by assumption. auto.
Qed.
Print Assumptions rulebook_remove_rule_partial.

(** A rule on lanes 1 and 2 and a speed limit on lane 2. *)
Definition rz1 : rule := mk_rule 4 [mk_lsrange 1 (mk_srange 0 5); mk_lsrange 2 (mk_srange 3 9)] 0.
Definition rz2 : rule := mk_rule 4 [mk_lsrange 2 (mk_srange 20 30)] 1.
Definition hist : list op := [Add DiscreteValue rz1; Add RangeValue rz1; Add SpeedLimit rz2; Remove ADir 4].
Example rulebook_example :
  (forall o, In o hist -> op_rule lanes_once o /\ op_rule zone_valid o) /\
  GetRule DiscreteValue 4 (after hist) = Ok rz1 /\ GetRule RangeValue 4 (after hist) = Throw /\
  (exists q, FindRules (after hist) [mk_lsrange 2 (mk_srange 10 19)] 1 = Ok q /\
     q DiscreteValue = [(4%nat, rz1)] /\ q SpeedLimit = [(4%nat, rz2)] /\ q RangeValue = []) /\
  (exists q, FindRules (after (hist ++ [Remove ARule 4])) [mk_lsrange 2 (mk_srange 10 19)] 1 = Ok q /\
     q DiscreteValue = [] /\ q SpeedLimit = [(4%nat, rz2)]).
Proof.
  split.
  - assert (L1 : lanes_once rz1).
    { unfold lanes_once. cbn. apply NoDup_cons; [cbn; intuition lia|]. apply NoDup_cons; [intros []|apply NoDup_nil]. }
    assert (L2 : lanes_once rz2).
    { unfold lanes_once. cbn. apply NoDup_cons; [intros []|apply NoDup_nil]. }
    assert (Z1 : zone_valid rz1) by (intros z [<-|[<-|[]]]; split; cbn; lra).
    assert (Z2 : zone_valid rz2) by (intros z [<-|[]]; split; cbn; lra).
    intros o [<-|[<-|[<-|[<-|[]]]]]; cbn; auto.
  - split; [reflexivity|]. split; [reflexivity|]. split; eexists; (split; [vm_compute; reflexivity|]); repeat split.
Qed.

(** Finding: a zone with two ranges on one lane, the last rule of that lane.
    RemoveRule throws (std::out_of_range from map_.at after the lane entry was
    erased), the rule stays in GetRule and Rules but FindRules has lost it, and
    neither removing it again nor adding it again is possible. *)
Theorem rulebook_remove_repeated_lane_refuted :
  exists r b b1, zone_valid r /\ b = after [Add DiscreteValue r] /\
    RemoveRule ARule (r_id r) b = (b1, false) /\
    GetRule DiscreteValue (r_id r) b1 = Ok r /\
    (exists q, FindRules b (r_zone r) 0 = Ok q /\ In (r_id r, r) (q DiscreteValue)) /\
    (exists q, FindRules b1 (r_zone r) 0 = Ok q /\ forall k, q k = []) /\
    snd (RemoveRule ARule (r_id r) b1) = false /\ snd (AddRule DiscreteValue r b1) = false.
Proof.
  exists (mk_rule 4 [mk_lsrange 1 (mk_srange 0 5); mk_lsrange 1 (mk_srange 7 9)] 0).
  eexists. eexists. split.
  { intros z [<-|[<-|[]]]; split; cbn; lra. }
  split; [reflexivity|]. split; [vm_compute; reflexivity|]. split; [reflexivity|].
  split. { eexists. split; [vm_compute; reflexivity|]. left. reflexivity. }
  split. { eexists. split; [vm_compute; reflexivity|]. intros []; reflexivity. }
  split; reflexivity.
Qed.
Print Assumptions rulebook_remove_repeated_lane_refuted.
