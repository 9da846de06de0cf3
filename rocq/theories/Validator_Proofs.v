(** Lemmas for the validator. *)
From Coq Require Import List QArith Lqa Lia Bool Arith.
From Verif Require Import Base Maps Regions_Model Regions_Spec Rulebook_Model Rulebook_Spec Rulebook_Proofs Rulebook_Props RuleStates_Model RuleStates_Spec RuleStates_Proofs Validator_Model Validator_Spec.
Import ListNotations.

Lemma each_ok {A} (f : A -> outcome unit) : forall l, each f l = Ok tt <-> forall x, In x l -> f x = Ok tt.
Proof.
  induction l as [|x l IH]; cbn [each]; [split; [intros _ x []|reflexivity]|]. split.
  - intros E y I. destruct (f x) as [[]| |] eqn:F; try discriminate. destruct I as [<-|I]; [exact F|]. apply IH; assumption.
  - intro A0. rewrite (A0 x (or_introl eq_refl)). cbn [obind]. apply IH. intros y I. apply A0. right. exact I.
Qed.
Lemma each_defined {A} (f : A -> outcome unit) : forall l, (forall x, In x l -> f x <> UB) -> each f l <> UB.
Proof.
  induction l as [|x l IH]; cbn [each]; intros D; [discriminate|]. pose proof (D x (or_introl eq_refl)) as X. destruct (f x) as [[]| |]; cbn [obind]; [|discriminate|congruence]. apply IH. intros y I. apply D. right. exact I.
Qed.
Lemma require_ok : forall c, require c = Ok tt <-> c = true.
Proof. intros []; cbn; split; congruence. Qed.
Lemma throw_unless_ok {A} : forall c (k : outcome A) v, throw_unless c k = Ok v <-> c = true /\ k = Ok v.
Proof. intros [] k v; cbn; [tauto|split; [discriminate|intros [H _]; discriminate]]. Qed.
Lemma throw_unless_defined {A} : forall c (k : outcome A), k <> UB -> throw_unless c k <> UB.
Proof. intros [] k D; cbn; [exact D|discriminate]. Qed.
Lemma obind_unit_ok : forall (x k : outcome unit), obind x (fun _ => k) = Ok tt <-> x = Ok tt /\ k = Ok tt.
Proof. intros [[]| |] k; cbn; split; try tauto; intros; try discriminate; destruct H; discriminate. Qed.
Lemma obind_unit_defined : forall (x k : outcome unit), x <> UB -> k <> UB -> obind x (fun _ => k) <> UB.
Proof. intros [[]| |] k D E; cbn; congruence. Qed.
Lemma is_ptr_ok : forall p q, is_ptr p q = true <-> p = Some q.
Proof. intros [x|] q; cbn; [rewrite Nat.eqb_eq; split; congruence|split; discriminate]. Qed.
Lemma nonempty_ok {A} : forall l : list A, Validator_Model.nonempty l = true <-> l <> [].
Proof. intros [|x l]; cbn; split; congruence. Qed.
Lemma mfind_iff {V} : forall k (v : V) m, NoDup (map fst m) -> (mfind Nat.eqb k m = Some v <-> In (k, v) m).
Proof. intros k v m N. split; [apply mfind_in, Nat.eqb_eq|apply mfind_nodup; [apply Nat.eqb_eq|exact N]]. Qed.
Lemma mhas_iff {V} : forall k (m : list (nat * V)), mhas Nat.eqb k m = true <-> exists v, In (k, v) m.
Proof.
  intros k m. rewrite (mhas_in Nat.eqb Nat.eqb_eq). rewrite in_map_iff. split; [intros ([k' v] & <- & I); exists v; exact I|intros (v & I); exists (k, v); auto].
Qed.
Lemma some_ok {A} : forall p : option A, (match p with Some _ => true | None => false end) = true <-> p <> None.
Proof. intros [x|]; split; congruence. Qed.

Section Proofs.
Context {pos rot : Type}.
Variables (pdist : pos -> pos -> Q) (rdist : rot -> rot -> Q) (reverse : rot -> rot).
Notation geometry := (@geometry pos rot).
Notation network := (@network pos rot).

(** ** Hierarchy *)
Lemma check_lane_iff : forall (g : geometry) seg p, keys (ix_lanes g) -> (check_lane g seg p = Ok tt <-> lane_fine g seg p).
Proof.
  intros g seg p K. unfold check_lane, lane_fine, get_lane. destruct p as [l|]; [|split; [discriminate|intros (l & E & _); discriminate]].
  rewrite !throw_unless_ok, !is_ptr_ok, !some_ok, (mfind_iff _ _ _ K). split; [intros (A & B & C & D & _); exists l; auto|intros (l' & E & H); injection E as <-; tauto].
Qed.
Lemma check_segment_iff : forall (g : geometry) j p, keys (ix_lanes g) -> keys (ix_segments g) -> (check_segment g j p = Ok tt <-> segment_fine g j p).
Proof.
  intros g j p K1 K2. unfold check_segment, segment_fine. destruct p as [s|]; [|split; [discriminate|intros (s & E & _); discriminate]].
  rewrite !throw_unless_ok, !is_ptr_ok, nonempty_ok, (mfind_iff _ _ _ K2), each_ok. split.
  - intros (A & B & C & D). exists s. repeat (split; [auto|]). intros q I. apply check_lane_iff; auto.
  - intros (s' & E & A & B & C & D). injection E as <-. repeat (split; [auto|]). intros q I. apply check_lane_iff; auto.
Qed.
Lemma check_junction_iff : forall (g : geometry) p, keys (ix_lanes g) -> keys (ix_segments g) -> keys (ix_junctions g) -> (check_junction g p = Ok tt <-> junction_fine g p).
Proof.
  intros g p K1 K2 K3. unfold check_junction, junction_fine. destruct p as [j|]; [|split; [discriminate|intros (s & E & _); discriminate]].
  rewrite !throw_unless_ok, !is_ptr_ok, nonempty_ok, (mfind_iff _ _ _ K3), each_ok. split.
  - intros (A & B & C & D). exists j. repeat (split; [auto|]). intros q I. apply check_segment_iff; auto.
  - intros (s' & E & A & B & C & D). injection E as <-. repeat (split; [auto|]). intros q I. apply check_segment_iff; auto.
Qed.
Lemma check_bp_iff : forall (g : geometry) p, keys (ix_bps g) -> (check_bp g p = Ok tt <-> bp_fine g p).
Proof.
  intros g p K. unfold check_bp, bp_fine. destruct p as [b|]; [|split; [discriminate|intros (s & a & e & E & _); discriminate]].
  rewrite !throw_unless_ok, !is_ptr_ok, (mfind_iff _ _ _ K). split.
  - intros (A & B & C). destruct (bp_a (g_bp g b)) as [a|] eqn:EA; [|discriminate]. destruct (bp_b (g_bp g b)) as [s|] eqn:EB; [|discriminate]. exists b, a, s. repeat (split; [auto|]).
    apply require_ok in C. intros [-> ->]. discriminate.
  - intros (b' & a & s & E & A & B & EA & EB & N). injection E as <-. rewrite EA, EB. repeat (split; [auto|]). apply require_ok. destruct a; [|reflexivity]. destruct s; [|reflexivity]. exfalso. auto.
Qed.
Lemma check_hierarchy_iff : forall g : geometry, keys (ix_lanes g) -> keys (ix_segments g) -> keys (ix_junctions g) -> keys (ix_bps g) -> (check_hierarchy g = Ok tt <-> hierarchy_fine g).
Proof.
  intros g K1 K2 K3 K4. unfold check_hierarchy, hierarchy_fine. rewrite throw_unless_ok, nonempty_ok, obind_unit_ok, throw_unless_ok, Nat.leb_le, !each_ok. split.
  - intros (A & B & C & D). repeat split; auto; intros p I; [apply check_junction_iff|apply check_bp_iff]; auto.
  - intros (A & B & C & D). repeat split; auto; intros p I; [apply check_junction_iff|apply check_bp_iff]; auto.
Qed.
Lemma check_hierarchy_defined : forall g : geometry, check_hierarchy g <> UB.
Proof.
  intro g. unfold check_hierarchy. apply throw_unless_defined, obind_unit_defined.
  - apply each_defined. intros [j|] _; cbn; [|discriminate]. repeat apply throw_unless_defined. apply each_defined. intros [s|] _; cbn; [|discriminate]. repeat apply throw_unless_defined.
    apply each_defined. intros [l|] _; cbn; [|discriminate]. repeat apply throw_unless_defined. discriminate.
  - apply throw_unless_defined, each_defined. intros [b|] _; cbn; [|discriminate]. repeat apply throw_unless_defined. destruct (bp_a _); [|discriminate]. destruct (bp_b _); [|discriminate]. apply throw_unless_defined. discriminate.
Qed.

(** ** Invariants *)
Lemma collect_nil {A} (f : A -> outcome (list failure)) : forall l, collect f l = Ok [] <-> forall x, In x l -> f x = Ok [].
Proof.
  induction l as [|x l IH]; cbn [collect]; [split; [intros _ x []|reflexivity]|]. split.
  - intros E. destruct (f x) as [a| |] eqn:F; try discriminate. cbn [obind] in E. destruct (collect f l) as [b| |] eqn:C; try discriminate. cbn [omap] in E. injection E as E. apply app_eq_nil in E. destruct E as [-> ->].
    intros y [<-|I]; [exact F|]. apply IH; [reflexivity|exact I].
  - intro A0. rewrite (A0 x (or_introl eq_refl)). cbn [obind]. replace (collect f l) with (Ok (A := list failure) []); [reflexivity|]. symmetry. apply IH. intros y I. apply A0. right. exact I.
Qed.
Lemma collect_defined {A} (f : A -> outcome (list failure)) : forall l, (forall x, In x l -> exists a, f x = Ok a) -> exists a, collect f l = Ok a.
Proof.
  induction l as [|x l IH]; cbn [collect]; intros D; [eexists; reflexivity|]. destruct (D x (or_introl eq_refl)) as (a & ->). destruct IH as (b & ->); [intros y I; apply D; right; exact I|]. eexists. reflexivity.
Qed.
Lemma owner_iff : forall o e k, owner_failure o e k = Ok [] <-> o = Some e.
Proof. intros [x|] e k; cbn; [|split; discriminate]. destruct (Nat.eqb_spec x e) as [->|N]; split; congruence. Qed.
Lemma numbered_nth {A} : forall (l : list A) k i x, In (i, x) (numbered k l) <-> (k <= i)%nat /\ nth_error l (i - k) = Some x.
Proof.
  induction l as [|y l IH]; intros k i x; cbn [numbered In]; [split; [intros []|intros (_ & E); destruct (i - k)%nat; discriminate]|]. rewrite IH. split.
  - intros [E|(L & E)]; [injection E as <- <-; split; [lia|]; rewrite Nat.sub_diag; reflexivity|]. split; [lia|]. replace (i - k)%nat with (S (i - S k)) by lia. exact E.
  - intros (L & E). destruct (Nat.eq_dec i k) as [->|N]; [left; rewrite Nat.sub_diag in E; injection E as ->; reflexivity|]. right. split; [lia|]. replace (i - k)%nat with (S (i - S k)) in E by lia. exact E.
Qed.
Lemma lane_failures_nil : forall (g : geometry) s i p, lane_failures g s (i, p) = Ok [] <-> exists l, p = Some l /\ l_segment (g_ln g l) = Some s /\ l_index (g_ln g l) = i.
Proof.
  intros g s i p. unfold lane_failures. cbn [fst snd]. destruct p as [l|]; cbn [deref]; [|split; [discriminate|intros (l & E & _); discriminate]]. split.
  - intro E. destruct (owner_failure _ _ _) as [a| |] eqn:O; cbn [omap] in E; try discriminate. injection E as E. apply app_eq_nil in E. destruct E as [-> E]. apply owner_iff in O. exists l. split; [reflexivity|]. split; [exact O|].
    destruct (Nat.eqb_spec (l_index (g_ln g l)) i); [assumption|discriminate].
  - intros (l' & E & O & X). injection E as <-. rewrite (proj2 (owner_iff _ _ _) O). cbn [omap]. rewrite X, Nat.eqb_refl. reflexivity.
Qed.
Lemma bind_nil {A} (f : A -> outcome (list failure)) : forall o l, obind o (fun a => omap (app a) (collect f l)) = Ok [] <-> o = Ok [] /\ collect f l = Ok [].
Proof.
  intros o l. destruct o as [a| |]; cbn [obind]; [|split; [discriminate|intros [E _]; discriminate]..]. destruct (collect f l) as [b| |]; cbn [omap]; [|split; [discriminate|intros [_ E]; discriminate]..]. split.
  - intro E. injection E as E. apply app_eq_nil in E. destruct E as [-> ->]. auto.
  - intros [E1 E2]. injection E1 as ->. injection E2 as ->. reflexivity.
Qed.
Lemma segment_failures_nil : forall (g : geometry) j p, segment_failures g j p = Ok [] <-> exists s, p = Some s /\ s_junction (g_sg g s) = Some j /\
  forall i q, nth_error (s_lanes (g_sg g s)) i = Some q -> exists l, q = Some l /\ l_segment (g_ln g l) = Some s /\ l_index (g_ln g l) = i.
Proof.
  intros g j p. unfold segment_failures. destruct p as [s|]; cbn [deref]; [|split; [discriminate|intros (l & E & _); discriminate]]. rewrite bind_nil, owner_iff, collect_nil. split.
  - intros (O & C). exists s. split; [reflexivity|]. split; [exact O|]. intros i q N. apply (lane_failures_nil g s i q). apply C. apply numbered_nth. rewrite Nat.sub_0_r. split; [lia|exact N].
  - intros (s' & E & O & C). injection E as <-. split; [exact O|]. intros [i q] I. apply numbered_nth in I. destruct I as (_ & I). rewrite Nat.sub_0_r in I. apply lane_failures_nil. apply C. exact I.
Qed.
Lemma junction_failures_nil : forall (g : geometry) p, junction_failures g p = Ok [] <-> exists j, p = Some j /\ j_rg (g_jn g j) = Some (g_self g) /\
  forall q, In q (j_segments (g_jn g j)) -> segment_failures g j q = Ok [].
Proof.
  intros g p. unfold junction_failures. destruct p as [j|]; cbn [deref]; [|split; [discriminate|intros (l & E & _); discriminate]]. rewrite bind_nil, owner_iff, collect_nil. split.
  - intros (O & C). exists j. auto.
  - intros (s' & E & O & C). injection E as <-. auto.
Qed.
Lemma end_place : forall (g : geometry) e, end_pos g e = place g e.
Proof. reflexivity. Qed.
Lemma end_heading : forall (g : geometry) e, end_out reverse g e = heading_out reverse g e.
Proof. intros g [l []]; reflexivity. Qed.
Lemma flat_map_nil {A B} (f : A -> list B) : forall l, flat_map f l = [] <-> forall x, In x l -> f x = [].
Proof.
  induction l as [|x l IH]; cbn [flat_map]; [split; [intros _ x []|reflexivity]|]. split.
  - intro E. apply app_eq_nil in E. destruct E as [E1 E2]. intros y [<-|I]; [exact E1|]. apply IH; assumption.
  - intro H. rewrite (H x (or_introl eq_refl)). apply IH. intros y I. apply H. right. exact I.
Qed.
Lemma over_nil : forall a b (k : failure), (if Qltb a b then [k] else []) = [] <-> b <= a.
Proof. intros a b k. unfold Qltb. destruct (Qle_bool b a) eqn:E; cbn [negb]; [apply Qle_bool_iff in E; split; auto|]. split; [discriminate|]. intro L. apply Qle_bool_iff in L. congruence. Qed.
Lemma bp_failures_nil : forall (g : geometry) p, bp_failures pdist rdist reverse g p = Ok [] <-> exists b x y, p = Some b /\ bp_a (g_bp g b) = Some x /\ bp_b (g_bp g b) = Some y /\ ends_meet pdist rdist reverse g x y.
Proof.
  intros g p. unfold bp_failures. destruct p as [b|]; cbn [deref]; [|split; [discriminate|intros (? & ? & ? & E & _); discriminate]].
  destruct (bp_a (g_bp g b)) as [x|] eqn:EX; [|split; [discriminate|intros (b' & ? & ? & E & E' & _); injection E as <-; congruence]].
  destruct (bp_b (g_bp g b)) as [y|] eqn:EY; [|split; [discriminate|intros (b' & ? & ? & E & _ & E' & _); injection E as <-; congruence]].
  destruct (x ++ y) as [|ref rest] eqn:XY.
  - split; [discriminate|]. intros (b' & x' & y' & E & E1 & E2 & M). injection E as <-. rewrite EX in E1. rewrite EY in E2. injection E1 as <-. injection E2 as <-. apply app_eq_nil in XY. destruct XY as [-> ->].
    destruct M as (r & h & _ & _ & _ & [(a' & E & _)|(_ & b' & E & _)]); discriminate.
  - set (heading := match x with [] => reverse (end_out reverse g ref) | _ => end_out reverse g ref end).
    assert (HR : (exists a', x = ref :: a' /\ heading = heading_out reverse g ref) \/ (x = [] /\ exists b', y = ref :: b' /\ heading = reverse (heading_out reverse g ref))).
    { unfold heading. destruct x as [|x0 x']; cbn [app] in XY; [right; split; [reflexivity|]; exists rest; rewrite end_heading; auto|]. left. injection XY as -> _. exists x'. rewrite end_heading. auto. }
    assert (C : (Ok (flat_map (fun e => if Qltb (g_linear g) (pdist (end_pos g ref) (end_pos g e)) then [FPosition] else []) x ++ flat_map (fun e => if Qltb (g_linear g) (pdist (end_pos g ref) (end_pos g e)) then [FPosition] else []) y ++
       flat_map (fun e => if Qltb (g_angular g) (rdist heading (end_out reverse g e)) then [FOrientation] else []) x ++ flat_map (fun e => if Qltb (g_angular g) (rdist (reverse heading) (end_out reverse g e)) then [FOrientation] else []) y) = Ok (A := list failure) []) <->
       (forall e, In e (x ++ y) -> pdist (place g ref) (place g e) <= g_linear g) /\ (forall e, In e x -> rdist heading (heading_out reverse g e) <= g_angular g) /\ (forall e, In e y -> rdist (reverse heading) (heading_out reverse g e) <= g_angular g)).
    { split.
      - intro E. injection E as E. apply app_eq_nil in E. destruct E as [E1 E]. apply app_eq_nil in E. destruct E as [E2 E]. apply app_eq_nil in E. destruct E as [E3 E4]. rewrite flat_map_nil in E1, E2, E3, E4. split; [|split].
        + intros e I. apply in_app_or in I. destruct I as [I|I]; [specialize (E1 e I)|specialize (E2 e I)]; eapply over_nil; eassumption.
        + intros e I. specialize (E3 e I). rewrite <- end_heading. eapply over_nil; eassumption.
        + intros e I. specialize (E4 e I). rewrite <- end_heading. eapply over_nil; eassumption.
      - intros (A & B & D). f_equal. assert (E1 : flat_map (fun e => if Qltb (g_linear g) (pdist (end_pos g ref) (end_pos g e)) then [FPosition] else []) x = []) by (apply flat_map_nil; intros e I; apply over_nil, A, in_or_app; auto).
        assert (E2 : flat_map (fun e => if Qltb (g_linear g) (pdist (end_pos g ref) (end_pos g e)) then [FPosition] else []) y = []) by (apply flat_map_nil; intros e I; apply over_nil, A, in_or_app; auto).
        rewrite E1, E2. cbn [app]. rewrite (proj2 (flat_map_nil _ x)), (proj2 (flat_map_nil _ y)); [reflexivity| |]; intros e I; apply over_nil; rewrite end_heading; auto. }
    rewrite C. split.
    + intros (A & B & D). exists b, x, y. repeat (split; [auto|]). exists ref, heading. repeat (split; [assumption|]). exact HR.
    + intros (b' & x' & y' & E & E1 & E2 & r & h & A & B & D & R). injection E as <-. rewrite EX in E1. rewrite EY in E2. injection E1 as <-. injection E2 as <-.
      assert (r = ref /\ h = heading) as [-> ->]; [|auto].
      destruct R as [(a' & E & EH)|(E & b' & E' & EH)]; destruct HR as [(a'' & F & FH)|(F & b'' & F' & FH)]; try congruence.
      * rewrite E in F. injection F as -> _. split; congruence.
      * rewrite E' in F'. injection F' as -> _. split; congruence.
Qed.
Lemma throw_if_iff : forall g : geometry, no_null g -> (throw_if_invariants pdist rdist reverse g = Ok tt <-> invariants_fine pdist rdist reverse g) /\ throw_if_invariants pdist rdist reverse g <> UB.
Proof.
  intros g (NB & NJ). unfold throw_if_invariants.
  assert (D1 : exists f, collect (bp_owner g) (g_bps g) = Ok f). { apply collect_defined. intros p I. destruct (NB p I) as (b & -> & O & _). unfold bp_owner. cbn [deref]. destruct (bp_rg (g_bp g b)); [|congruence]. cbn. eexists. reflexivity. }
  assert (D2 : exists f, collect (junction_failures g) (g_junctions g) = Ok f).
  { apply collect_defined. intros p I. destruct (NJ p I) as (j & -> & O & NS). unfold junction_failures. cbn [deref]. destruct (j_rg (g_jn g j)); [|congruence]. cbn [owner_failure obind].
    destruct (collect_defined (segment_failures g j) (j_segments (g_jn g j))) as (a & ->); [|eexists; reflexivity]. intros q J. destruct (NS q J) as (s & -> & O' & NL). unfold segment_failures. cbn [deref].
    destruct (s_junction (g_sg g s)); [|congruence]. cbn [owner_failure obind]. destruct (collect_defined (lane_failures g s) (numbered 0 (s_lanes (g_sg g s)))) as (a & ->); [|eexists; reflexivity].
    intros [i r] K. apply numbered_nth in K. destruct K as (_ & K). apply nth_error_In in K. destruct (NL r K) as (l & -> & O''). unfold lane_failures. cbn [fst snd deref]. destruct (l_segment (g_ln g l)); [|congruence]. eexists. reflexivity. }
  assert (D3 : exists f, collect (bp_failures pdist rdist reverse g) (g_bps g) = Ok f).
  { apply collect_defined. intros p I. destruct (NB p I) as (b & -> & _ & O1 & O2). unfold bp_failures. cbn [deref]. destruct (bp_a (g_bp g b)) as [x|]; [|congruence]. destruct (bp_b (g_bp g b)) as [y|]; [|congruence]. destruct (x ++ y); eexists; reflexivity. }
  destruct D1 as (f1 & D1). destruct D2 as (f2 & D2). destruct D3 as (f3 & D3).
  assert (E : check_invariants pdist rdist reverse g = Ok (f1 ++ f2 ++ f3)) by (unfold check_invariants; rewrite D1, D2, D3; reflexivity). rewrite E. cbn [obind]. split; [|apply throw_unless_defined; discriminate].
  rewrite require_ok. assert (N : (match f1 ++ f2 ++ f3 with [] => true | _ :: _ => false end) = true <-> f1 = [] /\ f2 = [] /\ f3 = []).
  { split; [|intros (-> & -> & ->); reflexivity]. destruct (f1 ++ f2 ++ f3) eqn:F; [|discriminate]. intros _. apply app_eq_nil in F. destruct F as [-> F]. apply app_eq_nil in F. tauto. }
  rewrite N. clear N E. split.
  - intros (-> & -> & ->). rewrite collect_nil in D1, D2, D3. split; [split|].
    + intros b I. specialize (D1 _ I). unfold bp_owner in D1. cbn [deref] in D1. apply owner_iff in D1. exact D1.
    + intros j I. specialize (D2 _ I). apply junction_failures_nil in D2. destruct D2 as (j' & E & O & C). injection E as <-. split; [exact O|]. intros s J. specialize (C _ J). apply segment_failures_nil in C.
      destruct C as (s' & E & O' & C). injection E as <-. split; [exact O'|]. intros i l K. destruct (C i _ K) as (l' & E & H). injection E as <-. exact H.
    + intros p a b I EA EB. specialize (D3 _ I). apply bp_failures_nil in D3. destruct D3 as (p' & x & y & E & E1 & E2 & M). injection E as <-. rewrite EA in E1. rewrite EB in E2. injection E1 as <-. injection E2 as <-. exact M.
  - intros ((OB & OJ) & M). assert (F1 : collect (bp_owner g) (g_bps g) = Ok []). { apply collect_nil. intros p I. destruct (NB p I) as (b & -> & _). unfold bp_owner. cbn [deref]. apply owner_iff. auto. }
    assert (F2 : collect (junction_failures g) (g_junctions g) = Ok []).
    { apply collect_nil. intros p I. destruct (NJ p I) as (j & -> & _ & NS). destruct (OJ j I) as (O & C). apply junction_failures_nil. exists j. split; [reflexivity|]. split; [exact O|]. intros q J. destruct (NS q J) as (s & -> & _ & NL).
      destruct (C s J) as (O' & C'). apply segment_failures_nil. exists s. split; [reflexivity|]. split; [exact O'|]. intros i r K. destruct (NL r (nth_error_In _ _ K)) as (l & -> & _). exists l. split; [reflexivity|]. apply C'. exact K. }
    assert (F3 : collect (bp_failures pdist rdist reverse g) (g_bps g) = Ok []).
    { apply collect_nil. intros p I. destruct (NB p I) as (b & -> & _ & O1 & O2). apply bp_failures_nil. destruct (bp_a (g_bp g b)) as [x|] eqn:E1; [|congruence]. destruct (bp_b (g_bp g b)) as [y|] eqn:E2; [|congruence]. exists b, x, y. repeat (split; [auto|]). eapply M; eassumption. }
    rewrite F1 in D1. rewrite F2 in D2. rewrite F3 in D3. injection D1 as <-. injection D2 as <-. injection D3 as <-. auto.
Qed.

(** ** Rules *)
Lemma Qltb_lt : forall a b, Qltb a b = true <-> a < b.
Proof. intros a b. unfold Qltb. rewrite negb_true_iff. split; [intro H; apply Qnot_le_lt; intro L; apply Qle_bool_iff in L; congruence|]. intro L. destruct (Qle_bool b a) eqn:E; [|reflexivity]. apply Qle_bool_iff in E. lra. Qed.
Lemma is_contiguous_iff : forall (g : geometry) a b, keys (ix_lanes g) -> (is_contiguous pdist rdist g a b = Ok true <-> follows pdist rdist g a b) /\ is_contiguous pdist rdist g a b <> UB.
Proof.
  intros g a b K. unfold is_contiguous, follows, get_lane. split.
  - split.
    + destruct (mfind Nat.eqb (lane_id a) (ix_lanes g)) as [la|] eqn:A; [|discriminate]. destruct (mfind Nat.eqb (lane_id b) (ix_lanes g)) as [lb|] eqn:B; [|discriminate]. intro E. injection E as E. apply andb_true_iff in E. destruct E as [E1 E2].
      apply (mfind_iff _ _ _ K) in A. apply (mfind_iff _ _ _ K) in B. exists la, lb. repeat split; auto; apply Qltb_lt; assumption.
    + intros (la & lb & A & B & E1 & E2). apply (mfind_iff _ _ _ K) in A. apply (mfind_iff _ _ _ K) in B. rewrite A, B. f_equal. apply andb_true_iff. split; apply Qltb_lt; assumption.
  - destruct (mfind _ _ _); [|discriminate]. destruct (mfind _ _ _); discriminate.
Qed.
Lemma check_zone_iff : forall (g : geometry) z, keys (ix_lanes g) -> (check_zone pdist rdist g z = Ok tt <-> contiguous pdist rdist g z) /\ check_zone pdist rdist g z <> UB.
Proof.
  intros g z K. induction z as [|a z IH]; [split; [split; [intros _ l1 x y l2 E; destruct l1; discriminate|reflexivity]|discriminate]|]. destruct z as [|b z].
  - split; [split; [intros _ l1 x y l2 E; destruct l1 as [|? [|? ?]]; discriminate|reflexivity]|discriminate].
  - destruct IH as (IH & D). destruct (is_contiguous_iff g a b K) as (C & D'). change (check_zone pdist rdist g (a :: b :: z)) with (obind (is_contiguous pdist rdist g a b) (fun c => throw_unless c (check_zone pdist rdist g (b :: z)))).
    split.
    + split.
      * intro E. destruct (is_contiguous pdist rdist g a b) as [c| |]; cbn [obind] in E; try discriminate. apply throw_unless_ok in E. destruct E as [-> E]. pose proof (proj1 C eq_refl) as F. apply IH in E.
        intros l1 x y l2 EQ. destruct l1 as [|w l1]; [injection EQ as <- <- <-; exact F|]. injection EQ as _ EQ. eapply E. exact EQ.
      * intro H. assert (F : follows pdist rdist g a b) by (apply (H [] a b z); reflexivity). rewrite (proj2 C F). cbn [obind throw_unless]. apply IH. intros l1 x y l2 EQ. apply (H (a :: l1) x y l2). rewrite EQ. reflexivity.
    + destruct (is_contiguous pdist rdist g a b) as [c| |]; cbn [obind]; [apply throw_unless_defined; exact D|discriminate|congruence].
Qed.

(** ** The network checks *)
Definition from_history (n : network) : Prop := exists h, n_book n = after h /\ all_returned h empty /\ forall o, In o h -> op_rule zone_valid o.
Lemma history_keys : forall n k, from_history n -> keys (rules (n_book n) k).
Proof. intros n k (h & E & _). rewrite E. destruct (run_wf h) as [W _]. apply (wf_nd _ W). Qed.
Lemma check_contiguity_iff : forall n : network, keys (ix_lanes (n_geometry n)) -> (check_contiguity pdist rdist n = Ok tt <-> zones_fine pdist rdist n) /\ check_contiguity pdist rdist n <> UB.
Proof.
  intros n K. unfold check_contiguity, zones_fine, Rules. split.
  - rewrite obind_unit_ok, !each_ok. split.
    + intros (A & B) k id r [->| ->] I; [specialize (A _ I)|specialize (B _ I)]; apply check_zone_iff; assumption.
    + intro H. split; intros [id r] I; cbn [snd]; apply check_zone_iff; eauto.
  - apply obind_unit_defined; apply each_defined; intros [id r] _; cbn [snd]; apply check_zone_iff; assumption.
Qed.
Lemma check_coverage_iff : forall n : network, from_history n -> (forall id l, In (id, l) (ix_lanes (n_geometry n)) -> 0 <= l_length (g_ln (n_geometry n) l)) ->
  (check_coverage n = Ok tt <-> coverage_fine n) /\ check_coverage n <> UB.
Proof.
  intros n FH NN. assert (ONE : forall id l, In (id, l) (ix_lanes (n_geometry n)) ->
    exists q : kind -> list (nat * rule), obind (SRange 0 (l_length (g_ln (n_geometry n) l))) (fun r => obind (FindRules (n_book n) [mk_lsrange id r] 0) (fun q => require (Validator_Model.nonempty (q DirectionUsage)))) = require (Validator_Model.nonempty (q DirectionUsage)) /\
      (q DirectionUsage <> [] <-> exists rid r z x, In (rid, r) (rules (n_book n) DirectionUsage) /\ In z (r_zone r) /\ lane_id z = id /\ In_range x (s_range z) /\ 0 <= x <= l_length (g_ln (n_geometry n) l))).
  { intros id l I. specialize (NN _ _ I). assert (ES : SRange 0 (l_length (g_ln (n_geometry n) l)) = Ok (mk_srange 0 (l_length (g_ln (n_geometry n) l)))).
    { unfold SRange. destruct (Qleb_spec 0 0) as [_|C]; [|exfalso; lra]. destruct (Qleb_spec 0 (l_length (g_ln (n_geometry n) l))) as [_|C]; [reflexivity|]. exfalso. lra. }
    rewrite ES. cbn [obind]. pose proof (fun k => history_keys n k FH) as KR. destruct FH as (h & E & R1 & R2). rewrite E in *.
    destruct (rulebook_find_rules_no_throw h [mk_lsrange id (mk_srange 0 (l_length (g_ln (n_geometry n) l)))] 0 R1 R2) as (q & EQ & M).
    - intros r [<-|[]]. unfold lvalid, valid. cbn. lra.
    - lra.
    - rewrite EQ. cbn [obind]. exists q. split; [reflexivity|]. split.
      + intro NE. destruct (q DirectionUsage) as [|[rid r] t] eqn:Q0; [congruence|]. destruct (proj1 (M DirectionUsage rid r)) as (G & z & y & Z1 & [<-|[]] & L & u & v & U & V & D); [rewrite Q0; left; reflexivity|].
        apply GetRule_content in G. unfold content in G. apply (mfind_iff _ _ _ (KR DirectionUsage)) in G. exists rid, r, z, u. cbn in L. repeat (split; [assumption|]).
        unfold In_range in V. cbn in V. apply Qabs.Qabs_Qle_condition in D. lra.
      + intros (rid & r & z & x & I1 & I2 & L & IR & B) C. assert (X : In (rid, r) (q DirectionUsage)); [|rewrite C in X; destruct X]. apply M. split.
        * apply GetRule_content. unfold content. apply (mfind_iff _ _ _ (KR DirectionUsage)). exact I1.
        * exists z, (mk_lsrange id (mk_srange 0 (l_length (g_ln (n_geometry n) l)))). split; [exact I2|]. split; [left; reflexivity|]. split; [exact L|]. exists x, x. split; [exact IR|]. split; [left; cbn; lra|].
          apply Qabs.Qabs_Qle_condition. split; lra. }
  unfold check_coverage. split.
  - rewrite each_ok. split.
    + intros H id l I. specialize (H _ I). destruct (ONE _ _ I) as (q & E & M). cbn [fst snd] in H. rewrite E in H. apply M. apply nonempty_ok, require_ok, H.
    + intros H [id l] I. destruct (ONE _ _ I) as (q & E & M). cbn [fst snd]. rewrite E. apply require_ok, nonempty_ok, M, (H _ _ I).
  - apply each_defined. intros [id l] I. destruct (ONE _ _ I) as (q & E & M). cbn [fst snd]. rewrite E. apply throw_unless_defined. discriminate.
Qed.
Lemma check_bulb_groups_iff : forall n : network, keys (n_lights n) -> (check_bulb_groups n = Ok tt <-> bulb_groups_fine n) /\ check_bulb_groups n <> UB.
Proof.
  intros n K. unfold check_bulb_groups, bulb_groups_fine, Rules. split.
  - rewrite each_ok. split.
    + intros H id r t gs gid I1 I2 I3. specialize (H _ I1). rewrite each_ok in H. specialize (H _ I2). rewrite each_ok in H. specialize (H _ I3). cbn [fst] in H.
      destruct (mfind Nat.eqb t (n_lights n)) as [l|] eqn:F; [|discriminate]. apply (mfind_iff _ _ _ K) in F. apply require_ok, mhas_iff in H. destruct H as (v & H). exists l, v. auto.
    + intros H [id r] I1. apply each_ok. intros [t gs] I2. apply each_ok. intros gid I3. cbn [fst snd]. destruct (H _ _ _ _ _ I1 I2 I3) as (l & v & A & B). apply (mfind_iff _ _ _ K) in A. rewrite A. apply require_ok, mhas_iff. eauto.
  - apply each_defined. intros x _. apply each_defined. intros y _. apply each_defined. intros z _. destruct (mfind _ _ _); [|discriminate]. apply throw_unless_defined. discriminate.
Qed.
Lemma walk_iff : forall (n : network) f, walk_phases n f = Ok tt <-> rings_there n /\ forall p, a_phase n p -> f p = Ok tt.
Proof.
  intros n f. unfold walk_phases. rewrite each_ok. split.
  - intros H. split.
    + intros id I E. specialize (H _ I). rewrite E in H. discriminate.
    + intros p (id & ps & I & E & J). specialize (H _ I). rewrite E in H. rewrite each_ok in H. auto.
  - intros (R & H) id I. specialize (R _ I). destruct (n_ring n id) as [ps|] eqn:E; [|congruence]. apply each_ok. intros p J. apply H. exists id, ps. auto.
Qed.
Lemma walk_defined : forall (n : network) f, (forall p, a_phase n p -> f p <> UB) -> walk_phases n f <> UB.
Proof. intros n f D. unfold walk_phases. apply each_defined. intros id I. destruct (n_ring n id) as [ps|] eqn:E; [|discriminate]. apply each_defined. intros p J. apply D. exists id, ps. auto. Qed.
Lemma check_phase_rules_iff : forall n : network, (forall k, keys (rules (n_book n) k)) -> (forall k v, In v (n_discrete n k) -> map_state (dv_state v)) ->
  (forall p id v, a_phase n p -> In (id, v) (vp_rules p) -> map_state (dv_state v)) -> (check_phase_rules n = Ok tt <-> phase_rules_fine n) /\ check_phase_rules n <> UB.
Proof.
  intros n K M1 M2. unfold check_phase_rules, phase_rules_fine. split.
  - rewrite walk_iff. split; intros (R & H); (split; [exact R|]).
    + intros p id v P I. specialize (H _ P). rewrite each_ok in H. specialize (H _ I). cbn [fst snd] in H. destruct (GetRule DiscreteValue id (n_book n)) as [r| |] eqn:G; cbn [obind] in H; try discriminate.
      apply GetRule_content in G. unfold content in G. apply (mfind_iff _ _ _ (K DiscreteValue)) in G. exists r. split; [exact G|]. apply require_ok, existsb_exists in H. destruct H as (s & S1 & S2). apply dvalue_eqb_sub in S2; eauto.
      destruct S2 as (S2 & S3). exists s. auto.
    + intros p P. apply each_ok. intros [id v] I. cbn [fst snd]. destruct (H p id v P I) as (r & I2 & s & S1 & S2 & S3). apply (mfind_iff _ _ _ (K DiscreteValue)) in I2. rewrite (proj2 (GetRule_content _ _ _ _) I2). cbn [obind].
      apply require_ok, existsb_exists. exists s. split; [exact S1|]. apply dvalue_eqb_sub; eauto. split; assumption.
  - apply walk_defined. intros p P. apply each_defined. intros [id v] I. cbn [fst snd]. unfold GetRule. destruct (mfind _ _ _); cbn [obind]; [|discriminate]. apply throw_unless_defined. discriminate.
Qed.
Lemma check_phase_bulbs_iff : forall n : network, keys (n_lights n) -> (forall t l, In (t, l) (n_lights n) -> keys l) -> (forall t l gr b, In (t, l) (n_lights n) -> In (gr, b) l -> keys b) ->
  (check_phase_bulbs n = Ok tt <-> phase_bulbs_fine n) /\ check_phase_bulbs n <> UB.
Proof.
  intros n K1 K2 K3. unfold check_phase_bulbs, phase_bulbs_fine. split.
  - rewrite walk_iff. split; intros (R & H); (split; [exact R|]).
    + intros p bs t gr b s P E I. specialize (H _ P). rewrite E, each_ok in H. specialize (H _ I). cbn in H.
      destruct (mfind Nat.eqb t (n_lights n)) as [l|] eqn:F1; [|discriminate]. destruct (mfind Nat.eqb gr l) as [gg|] eqn:F2; [|discriminate]. destruct (mfind Nat.eqb b gg) as [ss|] eqn:F3; [|discriminate].
      apply (mfind_in Nat.eqb Nat.eqb_eq) in F1, F2, F3. apply require_ok, vmem_in in H. exists l, gg, ss. auto.
    + intros p P. destruct (vp_bulbs p) as [bs|] eqn:E; [|reflexivity]. apply each_ok. intros [[[t gr] b] s] I. destruct (H p bs t gr b s P E I) as (l & gg & ss & A & B & C & D). pose proof (K2 _ _ A) as KL. pose proof (K3 _ _ _ _ A B) as KG.
      apply (mfind_iff _ _ _ K1) in A. apply (mfind_iff _ _ _ KL) in B. apply (mfind_iff _ _ _ KG) in C. rewrite A, B, C. apply require_ok, vmem_in, D.
  - apply walk_defined. intros p P. destruct (vp_bulbs p); [|discriminate]. apply each_defined. intros [[[t gr] b] s] I. repeat (destruct (mfind _ _ _); [|discriminate]). apply throw_unless_defined. discriminate.
Qed.
Lemma rule_id_in_iff : forall (n : network) id, rule_id_in n id = true <-> rule_exists n id.
Proof.
  intros n id. unfold rule_id_in, rule_exists, Rules. rewrite orb_true_iff, !mhas_iff. split.
  - intros [(v & I)|(v & I)]; eauto.
  - intros (k & r & [->| ->] & I); eauto.
Qed.
Lemma check_related_iff : forall n : network, (check_related n = Ok tt <-> related_fine n) /\ check_related n <> UB.
Proof.
  intro n. unfold check_related, related_fine, Rules. split.
  - rewrite obind_unit_ok. split.
    + intros (A & B). rewrite each_ok in A, B. split; intros id r v k ids x I1 I2 I3 I4; [specialize (A _ I1); rename A into H|specialize (B _ I1); rename B into H];
      rewrite each_ok in H; specialize (H _ I2); rewrite each_ok in H; specialize (H _ I3); cbn [snd] in H; rewrite each_ok in H; specialize (H _ I4); apply rule_id_in_iff, require_ok, H.
    + intros (A & B). split; apply each_ok; intros [id r] I1; apply each_ok; intros v I2; apply each_ok; intros [k ids] I3; apply each_ok; intros x I4; apply require_ok, rule_id_in_iff; eauto.
  - apply obind_unit_defined; apply each_defined; intros; apply each_defined; intros; apply each_defined; intros; apply each_defined; intros; apply throw_unless_defined; discriminate.
Qed.
Lemma run_iff : forall (b : bool) c k (P Q0 : Prop), (b = true -> (c = Ok tt <-> P) /\ c <> UB) -> (k = Ok tt <-> Q0) -> k <> UB ->
  (obind (if b then c else Ok tt) (fun _ => k) = Ok tt <-> (b = true -> P) /\ Q0) /\ obind (if b then c else Ok tt) (fun _ => k) <> UB.
Proof.
  intros [] c k P Q0 H K D; [destruct (H eq_refl) as (H1 & H2)|]; (split; [rewrite obind_unit_ok, K|apply obind_unit_defined; auto; discriminate]).
  - rewrite H1. tauto.
  - split; [intros (_ & q); split; [discriminate|exact q]|tauto].
Qed.
Lemma validate_iff : forall (n : network) o, tables n -> from_history n -> (o_invariants o = true -> no_null (n_geometry n)) ->
  (validate pdist rdist reverse n o = Ok tt <->
    (o_coverage o = true -> coverage_fine n) /\ (o_invariants o = true -> invariants_fine pdist rdist reverse (n_geometry n)) /\ (o_hierarchy o = true -> hierarchy_fine (n_geometry n)) /\ (o_bulb_groups o = true -> bulb_groups_fine n) /\
    (o_contiguity o = true -> zones_fine pdist rdist n) /\ (o_phase_rules o = true -> phase_rules_fine n) /\ (o_phase_bulbs o = true -> phase_bulbs_fine n) /\ (o_related o = true -> related_fine n) /\ True) /\
  validate pdist rdist reverse n o <> UB.
Proof.
  intros n o T FH NN. unfold validate. destruct T. pose proof (fun k => history_keys n k FH) as KR.
  pose proof (run_iff (o_related o) (check_related n) (Ok tt) (related_fine n) True (fun _ => check_related_iff n) (conj (fun _ => I) (fun _ => eq_refl)) ltac:(discriminate)) as R8.
  pose proof (run_iff (o_phase_bulbs o) (check_phase_bulbs n) _ (phase_bulbs_fine n) _ (fun _ => check_phase_bulbs_iff n t_lights t_groups t_bulbs) (proj1 R8) (proj2 R8)) as R7.
  pose proof (run_iff (o_phase_rules o) (check_phase_rules n) _ (phase_rules_fine n) _ (fun _ => check_phase_rules_iff n KR t_values t_phase_values) (proj1 R7) (proj2 R7)) as R6.
  pose proof (run_iff (o_contiguity o) (check_contiguity pdist rdist n) _ (zones_fine pdist rdist n) _ (fun _ => check_contiguity_iff n t_lanes) (proj1 R6) (proj2 R6)) as R5.
  pose proof (run_iff (o_bulb_groups o) (check_bulb_groups n) _ (bulb_groups_fine n) _ (fun _ => check_bulb_groups_iff n t_lights) (proj1 R5) (proj2 R5)) as R4.
  pose proof (run_iff (o_hierarchy o) (check_hierarchy (n_geometry n)) _ (hierarchy_fine (n_geometry n)) _ (fun _ => conj (check_hierarchy_iff _ t_lanes t_segments t_junctions t_bps) (check_hierarchy_defined _)) (proj1 R4) (proj2 R4)) as R3.
  pose proof (run_iff (o_invariants o) (throw_if_invariants pdist rdist reverse (n_geometry n)) _ (invariants_fine pdist rdist reverse (n_geometry n)) _ (fun e => throw_if_iff _ (NN e)) (proj1 R3) (proj2 R3)) as R2.
  exact (run_iff (o_coverage o) (check_coverage n) _ (coverage_fine n) _ (fun _ => check_coverage_iff n FH t_lengths) (proj1 R2) (proj2 R2)).
Qed.
End Proofs.
