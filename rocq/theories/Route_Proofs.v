(** Proofs for C40, C41, C42. *)
From Coq Require Import List Arith Bool QArith Qabs Lia Lqa Sorted.
From Verif Require Import Base Regions_Model Regions_Spec Regions_Proofs Graph_Spec Positions_Model Positions_Proofs Route_Model Route_Spec.
Import ListNotations.
Local Open Scope nat_scope.

(** ** Lookup *)
Lemma number_in {A} (l : list A) : forall k j x, In (j, x) (number k l) <-> k <= j /\ nth_error l (j - k) = Some x.
Proof.
  induction l as [|a l IH]; intros k j x; cbn [number].
  - split; [intros []|]. intros [_ H]. destruct (j - k); discriminate.
  - cbn [In]. rewrite IH. split.
    + intros [E|[L H]].
      * inversion E; subst. rewrite Nat.sub_diag. auto.
      * split; [lia|]. replace (j - k) with (S (j - S k)) by lia. auto.
    + intros [L H]. destruct (Nat.eq_dec j k) as [->|N].
      * rewrite Nat.sub_diag in H. cbn in H. inversion H. auto.
      * right. split; [lia|]. replace (j - k) with (S (j - S k)) in H by lia. auto.
Qed.
Lemma indexed_in r p i x : In ((p, i), x) (indexed r) <-> range_at r p i x.
Proof.
  unfold indexed, range_at. rewrite in_flat_map. split.
  - intros ((p' & ph') & H & H'). apply in_map_iff in H'. destruct H' as ((i' & x') & E & H'). cbn in E. inversion E; subst.
    apply number_in in H. apply number_in in H'. rewrite Nat.sub_0_r in *. cbn in H'. exists ph'. tauto.
  - intros (ph' & A & B). exists (p, ph'). split; [apply number_in; rewrite Nat.sub_0_r; split; [lia|auto]|].
    apply in_map_iff. exists (i, x). split; auto. apply number_in. rewrite Nat.sub_0_r. cbn. split; [lia|auto].
Qed.

Definition ibefore (a b : idx * lsrange) : Prop := before (fst a) (fst b).
Lemma ss_app {A} (R : A -> A -> Prop) l1 l2 : StronglySorted R l1 -> StronglySorted R l2 ->
  (forall a b, In a l1 -> In b l2 -> R a b) -> StronglySorted R (l1 ++ l2).
Proof.
  induction 1 as [|a l1 S1 IH F]; intros S2 H; cbn; auto. constructor.
  - apply IH; auto. intros; apply H; auto. right; auto.
  - apply Forall_app. split; auto. apply Forall_forall. intros b Hb. apply H; auto. left; auto.
Qed.
Lemma indexed_sorted_gen r : forall k, StronglySorted ibefore
  (flat_map (fun pi => map (fun jx => ((fst pi, fst jx), snd jx)) (number 0 (ph_ranges (snd pi)))) (number k r)).
Proof.
  induction r as [|ph r IH]; intro k; cbn [number flat_map]; [constructor|]. apply ss_app; auto.
  - cbn [snd fst]. generalize 0. induction (ph_ranges ph) as [|x l IHl]; intro m; cbn [number map]; constructor; auto.
    apply Forall_forall. intros ((p & i) & y) H. apply in_map_iff in H. destruct H as ((i' & x') & E & H). cbn in E. inversion E; subst.
    apply number_in in H. unfold ibefore, before. cbn. right. split; auto. lia.
  - intros a b Ha Hb. apply in_map_iff in Ha. destruct Ha as ((i & x) & <- & _).
    apply in_flat_map in Hb. destruct Hb as ((p & ph') & H & Hb). apply number_in in H. apply in_map_iff in Hb. destruct Hb as ((j & y) & <- & _).
    unfold ibefore, before. cbn. left. lia.
Qed.
Lemma indexed_sorted r : StronglySorted ibefore (indexed r).
Proof. apply indexed_sorted_gen. Qed.
Lemma ss_filter {A} (R : A -> A -> Prop) f l : StronglySorted R l -> StronglySorted R (filter f l).
Proof.
  induction 1 as [|a l S IH F]; cbn; [constructor|]. destruct (f a); auto. constructor; auto.
  rewrite Forall_forall in *. intros b Hb. apply filter_In in Hb. apply F. tauto.
Qed.
Lemma before_irrefl a : ~ before a a.
Proof. unfold before. lia. Qed.
Lemma before_asym a b : before a b -> before b a -> False.
Proof. unfold before. lia. Qed.
Lemma before_total a b : a = b \/ before a b \/ before b a.
Proof.
  destruct a as [a1 a2], b as [b1 b2]. unfold before. cbn.
  destruct (Nat.eq_dec a1 b1) as [->|]; destruct (Nat.eq_dec a2 b2) as [->|]; auto; right; lia.
Qed.
Lemma find_sorted f l : StronglySorted ibefore l ->
  match find f l with
  | Some ix => In ix l /\ f ix = true /\ forall jy, In jy l -> before (fst jy) (fst ix) -> f jy = false
  | None => forall jy, In jy l -> f jy = false
  end.
Proof.
  induction 1 as [|a l S IH F]; cbn; [tauto|]. destruct (f a) eqn:E.
  - split; auto. split; auto. intros jy [<-|H] B; [exfalso; apply (before_irrefl _ B)|].
    rewrite Forall_forall in F. exfalso. apply (before_asym _ _ B). apply F; auto.
  - destruct (find f l) as [ix|].
    + destruct IH as (I & T & U). split; auto. split; auto. intros jy [<-|H] B; auto.
    + intros jy [<-|H]; auto.
Qed.

Lemma contains_covers tol x q : (0 <= tol)%Q -> range_ok x -> range_ok q -> (contains tol x q = true <-> covers tol x q).
Proof.
  intros T [X0 X1] [Q0 Q1]. unfold contains, LContains, covers. destruct (Nat.eqb_spec (lane_id x) (lane_id q)) as [E|N];
    [|split; [discriminate|tauto]].
  destruct (contains_ends (s_range x) (s_range q) tol) as (b & -> & Hb); [split; auto|split; auto|intro; lra|].
  rewrite Hb. clear Hb. split.
  - intros [A B]. split; auto. intros s Hs.
    pose proof (cmin_l (s0 (s_range q)) (s1 (s_range q))). pose proof (cmin_r (s0 (s_range q)) (s1 (s_range q))).
    pose proof (cmax_l (s0 (s_range q)) (s1 (s_range q))). pose proof (cmax_r (s0 (s_range q)) (s1 (s_range q))).
    split.
    + destruct (cmin_cases (s0 (s_range x)) (s1 (s_range x))) as [[E' _]|[E' _]]; [left|right]; rewrite E' in A; destruct Hs as [->| ->]; lra.
    + destruct (cmax_cases (s0 (s_range x)) (s1 (s_range x))) as [[E' _]|[E' _]]; [left|right]; rewrite E' in B; destruct Hs as [->| ->]; lra.
  - intros [_ H]. destruct (H _ (or_introl eq_refl)) as [A B]. destruct (H _ (or_intror eq_refl)) as [C D].
    pose proof (cmin_l (s0 (s_range x)) (s1 (s_range x))). pose proof (cmin_r (s0 (s_range x)) (s1 (s_range x))).
    pose proof (cmax_l (s0 (s_range x)) (s1 (s_range x))). pose proof (cmax_r (s0 (s_range x)) (s1 (s_range x))).
    split.
    + destruct (cmin_cases (s0 (s_range q)) (s1 (s_range q))) as [[E' _]|[E' _]]; rewrite E'; lra.
    + destruct (cmax_cases (s0 (s_range q)) (s1 (s_range q))) as [[E' _]|[E' _]]; rewrite E'; lra.
Qed.

Section Route.
Variable net : network.
Variable r : list phase.
Hypothesis Tol : (0 <= tolerance net)%Q.
Hypothesis Ok_ranges : ranges_ok r.

Lemma lookup_some q i : range_ok q -> (FindLaneSRangeIndex net r q = Some i <-> resolves net r q i).
Proof.
  intro Q. unfold FindLaneSRangeIndex, indices_of.
  pose proof (find_sorted (fun ix => contains (tolerance net) (snd ix) q) _ (ss_filter _ (fun ix => Nat.eqb (lane_id (snd ix)) (lane_id q)) _ (indexed_sorted r))) as F.
  destruct (find _ _) as [[j y]|].
  - destruct F as (I & T & U). apply filter_In in I. destruct I as [I E]. cbn [snd fst] in *. apply Nat.eqb_eq in E. destruct j as [p k].
    apply indexed_in in I.
    assert (R : resolves net r q (p, k)).
    { split.
      - exists y. split; auto. apply contains_covers; auto. apply (Ok_ranges p k); auto.
      - intros [p' k'] z B I' C. assert (H : In ((p', k'), z) (filter (fun ix => Nat.eqb (lane_id (snd ix)) (lane_id q)) (indexed r))).
        { apply filter_In. split; [apply indexed_in; auto|]. cbn. apply Nat.eqb_eq. apply C. }
        specialize (U _ H B). cbn in U. apply contains_covers in C; auto; [congruence|]. apply (Ok_ranges p' k'); auto. }
    split; [intro H; inversion H; subst; auto|]. intros ((z & Hz & Cz) & Uz). f_equal.
    destruct (before_total (p, k) i) as [H|[H|H]]; auto; exfalso.
    + destruct R as ((y' & Hy & Cy) & _). apply (Uz (p, k) y' H Hy Cy).
    + destruct R as (_ & Ur). apply (Ur i z H Hz Cz).
  - split; [discriminate|]. intros ((z & Hz & Cz) & _). exfalso. destruct i as [p k]. cbn in Hz.
    assert (H : In ((p, k), z) (filter (fun ix => Nat.eqb (lane_id (snd ix)) (lane_id q)) (indexed r))).
    { apply filter_In. split; [apply indexed_in; auto|]. cbn. apply Nat.eqb_eq. apply Cz. }
    apply F in H. cbn in H. apply contains_covers in Cz; auto; [congruence|]. apply (Ok_ranges p k); auto.
Qed.
Lemma lookup_none q : range_ok q -> (FindLaneSRangeIndex net r q = None <-> forall p i x, range_at r p i x -> ~ covers (tolerance net) x q).
Proof.
  intro Q. unfold FindLaneSRangeIndex, indices_of.
  pose proof (find_sorted (fun ix => contains (tolerance net) (snd ix) q) _ (ss_filter _ (fun ix => Nat.eqb (lane_id (snd ix)) (lane_id q)) _ (indexed_sorted r))) as F.
  destruct (find _ _) as [[[p k] y]|].
  - destruct F as (I & T & U). apply filter_In in I. destruct I as [I E]. apply indexed_in in I. split; [discriminate|]. intro H. exfalso.
    apply (H p k y I). apply contains_covers; auto. apply (Ok_ranges p k); auto.
  - split; auto. intros _ p k z Hz Cz.
    assert (H : In ((p, k), z) (filter (fun ix => Nat.eqb (lane_id (snd ix)) (lane_id q)) (indexed r))).
    { apply filter_In. split; [apply indexed_in; auto|]. cbn. apply Nat.eqb_eq. apply Cz. }
    apply F in H. cbn in H. apply contains_covers in Cz; auto; [congruence|]. apply (Ok_ranges p k); auto.
Qed.
Lemma lookup_some_at q i : FindLaneSRangeIndex net r q = Some i -> exists x, range_at r (fst i) (snd i) x.
Proof.
  unfold FindLaneSRangeIndex. destruct (find _ _) as [[j y]|] eqn:F; [|discriminate]. intro E. inversion E; subst.
  apply find_some in F. destruct F as [F _]. apply filter_In in F. destruct F as [F _]. destruct i as [p k]. apply indexed_in in F. eauto.
Qed.
Lemma range_at_fun p i x y : range_at r p i x -> range_at r p i y -> x = y.
Proof. intros (a & A & B) (a' & A' & B'). congruence. Qed.
Lemma get_range p i x : GetLaneSRange r p i = Ok x <-> range_at r p i x.
Proof.
  unfold GetLaneSRange, range_at. split.
  - destruct (nth_error r p) as [a|]; [|discriminate]. destruct (nth_error (ph_ranges a) i) as [y|] eqn:E; [|discriminate]. intro H. inversion H; subst. eauto.
  - intros (a & A & B). rewrite A, B. reflexivity.
Qed.
Lemma at_index_ok p i x : range_at r p i x -> at_index r (p, i) = Ok x.
Proof. intros (a & A & B). unfold at_index. cbn [fst snd]. rewrite A, B. reflexivity. Qed.

(** ** Relations *)
Definition same_phase_rel (ia ib : nat) : relation :=
  if Nat.eqb ia ib then kCoincident else if Nat.eqb ia (ib + 1) then kAdjacentRight
  else if Nat.ltb (ib + 1) ia then kRight else if Nat.eqb (ia + 1) ib then kAdjacentLeft else kLeft.

Lemma relation_found a b pa ia pb ib :
  FindLaneSRangeIndex net r a = Some (pa, ia) -> FindLaneSRangeIndex net r b = Some (pb, ib) ->
  exists x y, range_at r pa ia x /\ range_at r pb ib y /\ ComputeLaneSRangeRelation net r a b =
    Ok (if Nat.ltb (pb + 1) pa || Nat.ltb (pa + 1) pb then kUnrelated
        else if Nat.eqb pa pb then same_phase_rel ia ib
        else if Nat.eqb (pa + 1) pb
        then match ComputeRelativePosition net (range_end x) (range_start y) with
             | RLeft => kSucceedingLeft | RCenter => kSucceedingStraight | RRight => kSucceedingRight end
        else match ComputeRelativePosition net (range_start x) (range_end y) with
             | RLeft => kPrecedingLeft | RCenter => kPrecedingStraight | RRight => kPrecedingRight end).
Proof.
  intros A B. destruct (lookup_some_at _ _ A) as (x & X). destruct (lookup_some_at _ _ B) as (y & Y). cbn [fst snd] in *.
  exists x, y. split; auto. split; auto. unfold ComputeLaneSRangeRelation. rewrite A, B.
  destruct (Nat.ltb (pb + 1) pa || Nat.ltb (pa + 1) pb); auto. destruct (Nat.eqb pa pb); auto.
  rewrite (at_index_ok pa ia x X), (at_index_ok pb ib y Y). cbn [obind]. destruct (Nat.eqb (pa + 1) pb); auto.
Qed.
Lemma relation_unknown a b : FindLaneSRangeIndex net r a = None \/ FindLaneSRangeIndex net r b = None ->
  ComputeLaneSRangeRelation net r a b = Ok kUnknown.
Proof. unfold ComputeLaneSRangeRelation. intros [-> | ->]; auto. destruct (FindLaneSRangeIndex net r a) as [[? ?]|]; auto. Qed.

Lemma center_sym a b : ComputeRelativePosition net a b = RCenter <-> ComputeRelativePosition net b a = RCenter.
Proof.
  unfold ComputeRelativePosition.
  set (u := inertial net (at_lane a) (at_pos a)). set (v := inertial net (at_lane b) (at_pos b)).
  assert (E : (dot (vsub v u) (vsub v u) == dot (vsub u v) (vsub u v))%Q) by (unfold dot, vsub; cbn [vx vy vz]; ring).
  destruct (Qleb_spec (dot (vsub v u) (vsub v u)) (tolerance net * tolerance net)) as [L|L];
    destruct (Qleb_spec (dot (vsub u v) (vsub u v)) (tolerance net * tolerance net)) as [M|M]; try lra; try tauto.
  destruct (Qltb 0 _), (Qltb 0 _); split; discriminate.
Qed.
Lemma touch_iff x y : ComputeRelativePosition net (range_end x) (range_start y) = RCenter <-> touch net x y.
Proof.
  unfold ComputeRelativePosition, touch, range_end, range_start. cbn [at_lane at_pos].
  match goal with |- context [Qleb ?a ?b] => destruct (Qleb_spec a b) as [L|L] end.
  - split; auto.
  - split.
    + destruct (Qltb 0 _); discriminate.
    + intro H. exfalso. unfold dot, vsub in L. cbn [vx vy vz] in L. lra.
Qed.

(** ** ComputeLaneSRoute *)
Hypothesis Distinct : ranges_distinct net r.

Lemma own_index p i x : range_at r p i x -> FindLaneSRangeIndex net r x = Some (p, i).
Proof. intro H. apply lookup_some; [apply (Ok_ranges p i); auto|]. apply Distinct; auto. Qed.

Lemma relation_same p i j x y : range_at r p i x -> range_at r p j y -> ComputeLaneSRangeRelation net r x y = Ok (same_phase_rel i j).
Proof.
  intros X Y. destruct (relation_found x y p i p j (own_index _ _ _ X) (own_index _ _ _ Y)) as (x' & y' & _ & _ & E). rewrite E.
  replace (Nat.ltb (p + 1) p) with false by (symmetry; apply Nat.ltb_ge; lia). cbn [orb]. rewrite Nat.eqb_refl. reflexivity.
Qed.
Lemma relation_prev q i j x y : range_at r (S q) i x -> range_at r q j y ->
  exists k, ComputeLaneSRangeRelation net r x y = Ok k /\ (k = kPrecedingStraight <-> touch net y x).
Proof.
  intros X Y. destruct (relation_found x y _ _ _ _ (own_index _ _ _ X) (own_index _ _ _ Y)) as (x' & y' & X' & Y' & E).
  rewrite (range_at_fun _ _ _ _ X' X), (range_at_fun _ _ _ _ Y' Y) in E. rewrite E.
  replace (Nat.ltb (q + 1) (S q)) with false by (symmetry; apply Nat.ltb_ge; lia).
  replace (Nat.ltb (S q + 1) q) with false by (symmetry; apply Nat.ltb_ge; lia). cbn [orb].
  replace (Nat.eqb (S q) q) with false by (symmetry; apply Nat.eqb_neq; lia).
  replace (Nat.eqb (S q + 1) q) with false by (symmetry; apply Nat.eqb_neq; lia).
  eexists. split; [reflexivity|]. rewrite <- touch_iff, center_sym.
  destruct (ComputeRelativePosition net (range_start x) (range_end y)); split; auto; discriminate.
Qed.

Definition haspred (p i : nat) : Prop := exists q j y x, p = S q /\ range_at r q j y /\ range_at r p i x /\ touch net y x.

Lemma find_straight_spec q i x ph : range_at r (S q) i x -> nth_error r q = Some ph -> forall l k, (forall m, nth_error l m = nth_error (ph_ranges ph) (k + m)) ->
  exists o, find_straight net r x k l = Ok o /\
    match o with
    | Some j => exists y, range_at r q j y /\ touch net y x
    | None => forall j y, k <= j -> range_at r q j y -> ~ touch net y x
    end.
Proof.
  intros X Hp. induction l as [|y l IH]; intros k Hk; cbn [find_straight].
  - exists None. split; auto. intros j y L (ph' & A & B). rewrite Hp in A. inversion A; subst ph'.
    specialize (Hk (j - k)). replace (k + (j - k)) with j in Hk by lia. rewrite B in Hk. destruct (j - k); discriminate.
  - assert (Y : range_at r q k y). { exists ph. split; auto. specialize (Hk 0). rewrite Nat.add_0_r in Hk. cbn in Hk. auto. }
    destruct (relation_prev q i k x y X Y) as (rel & E & T). rewrite E. cbn [obind].
    destruct (IH (S k)) as (o & Eo & So). { intro m. specialize (Hk (S m)). cbn in Hk. rewrite Hk. f_equal. lia. }
    assert (D : rel = kPrecedingStraight \/ rel <> kPrecedingStraight) by (destruct rel; auto; right; discriminate).
    destruct D as [->|D].
    + exists (Some k). split; auto. exists y. split; auto. apply T; auto.
    + exists o. split; [destruct rel; congruence|]. destruct o as [j|]; auto.
      intros j z L Z. destruct (Nat.eq_dec j k) as [->|N].
      * rewrite (range_at_fun _ _ _ _ Z Y). intro H. apply D. apply T. auto.
      * apply (So j z); auto. lia.
Qed.
Lemma straight_pred_spec q i x : range_at r (S q) i x ->
  exists o, FindStraightPredecessor net r (S q) i = Ok o /\
    match o with
    | Some (p, j) => p = q /\ exists y, range_at r q j y /\ touch net y x
    | None => ~ haspred (S q) i
    end.
Proof.
  intro X. pose proof X as (ph' & A & B). assert (L : q < length r).
  { assert (S q < length r) by (apply nth_error_Some; congruence). lia. }
  destruct (nth_error r q) as [ph|] eqn:Hq; [|apply nth_error_None in Hq; lia].
  unfold FindStraightPredecessor. rewrite Hq. pose proof (proj2 (get_range _ _ _) X) as G. rewrite G. cbn [obind].
  destruct (find_straight_spec q i x ph X Hq (ph_ranges ph) 0) as (o & E & So); [intro m; reflexivity|]. rewrite E. cbn [omap obind].
  eexists. split; [reflexivity|]. destruct o as [j|]; cbn [option_map].
  - split; auto.
  - intros (q' & j & y & x' & Eq & Y & X' & T). inversion Eq; subst q'. rewrite (range_at_fun _ _ _ _ X' X) in T. apply (So j y); auto. lia.
Qed.
Lemma haspred_some q i x o : range_at r (S q) i x -> FindStraightPredecessor net r (S q) i = Ok (Some o) -> haspred (S q) i.
Proof.
  intros X E. destruct (straight_pred_spec q i x X) as (o' & E' & S). rewrite E in E'. inversion E'; subst o'. destruct o as [p j].
  destruct S as (-> & y & Y & T). exists q, j, y, x. auto.
Qed.
Lemma any_pred_spec q : forall js, (forall j, In j js -> exists x, range_at r (S q) j x) ->
  exists b, any_pred net r (S q) js = Ok b /\ (b = true <-> exists j, In j js /\ haspred (S q) j).
Proof.
  induction js as [|j js IH]; intro H; cbn [any_pred].
  - exists false. split; auto. split; [discriminate|]. intros (j & [] & _).
  - destruct (H j (or_introl eq_refl)) as (x & X). destruct (straight_pred_spec q j x X) as (o & E & S). rewrite E. cbn [obind]. destruct o as [o|].
    + exists true. split; auto. split; auto. intros _. exists j. split; [left; auto|]. eapply haspred_some; eauto.
    + destruct IH as (b & Eb & Sb); [intros; apply H; right; auto|]. exists b. split; auto. rewrite Sb. split.
      * intros (k & A & B). exists k. split; auto. right; auto.
      * intros (k & [<-|A] & B); [contradiction|eauto].
Qed.

Section Phase.
Variables (q n : nat).
Hypothesis Size : exists ph, nth_error r (S q) = Some ph /\ length (ph_ranges ph) = n.
Lemma valid i : i < n -> exists x, range_at r (S q) i x.
Proof.
  intro L. destruct Size as (ph & A & B). destruct (nth_error (ph_ranges ph) i) as [x|] eqn:E; [exists x, ph; auto|].
  apply nth_error_None in E. lia.
Qed.
Lemma valid_lt i x : range_at r (S q) i x -> i < n.
Proof. intros (ph & A & B). destruct Size as (ph' & A' & <-). rewrite A in A'. inversion A'; subst. apply nth_error_Some. congruence. Qed.
Lemma direction_spec i : i < n -> ~ haspred (S q) i ->
  exists d, FindDirection net r (S q) i = Ok d /\
    ((exists j, i < j < n /\ haspred (S q) j) -> d = true) /\
    (0 < i -> (forall j, i < j < n -> ~ haspred (S q) j) -> d = false).
Proof.
  intros L N. destruct Size as (ph & A & B). unfold FindDirection. rewrite A, B. destruct (Nat.eqb_spec i 0) as [->|Z].
  { exists true. split; auto. split; auto. lia. }
  destruct (Nat.eqb_spec (i + 1) n) as [E|E].
  { exists false. split; auto. split; auto. intros (j & J & _). lia. }
  destruct (any_pred_spec q (seq (i + 1) (n - (i + 1)))) as (b & Eb & Sb).
  { intros j J. apply in_seq in J. apply valid. lia. }
  exists b. split; auto. split.
  - intros (j & J & H). apply Sb. exists j. split; auto. apply in_seq. lia.
  - intros _ H. destruct b; auto. exfalso. destruct (proj1 Sb eq_refl) as (j & J & K). apply in_seq in J. apply (H j); auto. lia.
Qed.

(** A trail suffix ending at [e]. *)
Definition suffix (e : idx) (is : list idx) (acc : list lsrange) : Prop :=
  consecutive (hop net r) is /\ Forall2 (fun i x => range_at r (fst i) (snd i) x) is acc /\ exists i is', is = i :: is' /\ last is i = e.

Lemma suffix_cons e i i' x is acc : suffix e (i :: is) acc -> hop net r i' i -> range_at r (fst i') (snd i') x -> suffix e (i' :: i :: is) (x :: acc).
Proof.
  intros (C & F & (j & js & E & La)) H R. inversion E; subst. split; [constructor; auto|]. split; [constructor; auto|].
  exists i', (j :: js). split; auto. clear. revert j. induction js as [|k js IH]; intro j; [reflexivity|].
  change (last (k :: js) i' = last (k :: js) j). clear. revert k. induction js as [|m js IH]; intro k; [reflexivity|]. apply IH.
Qed.

Definition found_at (e : idx) (b : nat) (res : outcome (option idx * list lsrange * nat)) : Prop :=
  exists j i' is' acc' b', res = Ok (Some (q, j), acc', S b') /\ suffix e ((S q, i') :: is') acc' /\ hop net r (q, j) (S q, i') /\
    exists y, range_at r q j y.

Lemma found_now e b i is acc x o : range_at r (S q) i x -> suffix e ((S q, i) :: is) acc -> FindStraightPredecessor net r (S q) i = Ok (Some o) ->
  found_at e (S (S b)) (pred_loop net (S (S b)) r (S q) i acc).
Proof.
  intros X S E. cbn [pred_loop]. rewrite E. cbn [obind]. destruct (straight_pred_spec q i x X) as (o' & E' & So). rewrite E in E'. inversion E'; subst o'.
  destruct o as [p j]. destruct So as (-> & y & Y & T). exists j, i, is, acc, b. split; auto. split; auto. split; [|eauto].
  right. cbn [fst snd]. split; auto. exists y, x. auto.
Qed.

Lemma loop_left e : forall d i j is acc b, j - i = d -> i <= j -> j < n -> haspred (S q) j -> d + 2 <= b -> suffix e ((S q, i) :: is) acc ->
  found_at e b (pred_loop net b r (S q) i acc).
Proof.
  induction d as [|d IH]; intros i j is acc b D L J H B S; destruct (valid i ltac:(lia)) as (x & X);
    destruct b as [|[|b]]; try lia; destruct (straight_pred_spec q i x X) as (o & E & So).
  - assert (i = j) by lia. subst j. destruct o as [o|]; [|contradiction]. eapply found_now; eauto.
  - destruct o as [o|]; [eapply found_now; eauto|].
    destruct (direction_spec i ltac:(lia) So) as (dir & Ed & Dl & _). assert (dir = true). { apply Dl. exists j. split; auto. lia. } subst dir.
    destruct (valid (Datatypes.S i) ltac:(lia)) as (z & Z).
    assert (R : pred_loop net (Datatypes.S (Datatypes.S b)) r (Datatypes.S q) i acc = pred_loop net (Datatypes.S b) r (Datatypes.S q) (Datatypes.S i) (z :: acc)).
    { remember (Datatypes.S b) as sb. cbn [pred_loop]. rewrite E. cbn [obind]. rewrite Ed. cbn [obind move]. rewrite (proj2 (get_range _ _ _) Z). reflexivity. }
    rewrite R. destruct (IH (Datatypes.S i) j ((Datatypes.S q, i) :: is) (z :: acc) (Datatypes.S b)) as (j' & i' & is' & acc' & b' & Q1 & Q2); try lia; auto.
    { apply suffix_cons; auto. left. cbn. auto. }
    exists j', i', is', acc', b'. auto.
Qed.
Lemma loop_right e : forall d i j is acc b, i - j = d -> j <= i -> i < n -> haspred (S q) j -> (forall k, i < k < n -> ~ haspred (S q) k) ->
  d + 2 <= b -> suffix e ((S q, i) :: is) acc -> found_at e b (pred_loop net b r (S q) i acc).
Proof.
  induction d as [|d IH]; intros i j is acc b D L J H U B S; destruct (valid i ltac:(lia)) as (x & X);
    destruct b as [|[|b]]; try lia; destruct (straight_pred_spec q i x X) as (o & E & So).
  - assert (i = j) by lia. subst j. destruct o as [o|]; [|contradiction]. eapply found_now; eauto.
  - destruct o as [o|]; [eapply found_now; eauto|].
    destruct (direction_spec i ltac:(lia) So) as (dir & Ed & _ & Dr). assert (dir = false) by (apply Dr; auto; lia). subst dir.
    destruct i as [|i]; [lia|]. destruct (valid i ltac:(lia)) as (z & Z).
    assert (R : pred_loop net (Datatypes.S (Datatypes.S b)) r (Datatypes.S q) (Datatypes.S i) acc = pred_loop net (Datatypes.S b) r (Datatypes.S q) i (z :: acc)).
    { remember (Datatypes.S b) as sb. cbn [pred_loop]. rewrite E. cbn [obind]. rewrite Ed. cbn [obind move]. rewrite (proj2 (get_range _ _ _) Z). reflexivity. }
    rewrite R. destruct (IH i j ((Datatypes.S q, Datatypes.S i) :: is) (z :: acc) (Datatypes.S b)) as (j' & i' & is' & acc' & b' & Q1 & Q2); try lia; auto.
    { intros k K. destruct (Nat.eq_dec k (Datatypes.S i)) as [->|]; auto. apply U. lia. }
    { apply suffix_cons; auto. left. cbn. auto. }
    exists j', i', is', acc', b'. auto.
Qed.
Lemma loop_none : (forall j, j < n -> ~ haspred (S q) j) -> forall b i acc, i < n ->
  pred_loop net b r (S q) i acc = Throw \/ exists acc', pred_loop net b r (S q) i acc = Ok (None, acc', 0).
Proof.
  intro U. induction b as [|b IH]; intros i acc L; [right; eexists; reflexivity|].
  destruct (valid i L) as (x & X). cbn [pred_loop]. destruct (straight_pred_spec q i x X) as (o & E & So). rewrite E. cbn [obind].
  destruct o as [o|]; [exfalso; apply (U i L); eapply haspred_some; eauto|].
  destruct (direction_spec i L So) as (d & Ed & _). rewrite Ed. cbn [obind]. destruct (move d i) as [k|]; auto.
  destruct (GetLaneSRange r (S q) k) as [z| |] eqn:G; cbn [obind]; auto.
  - apply IH. apply (valid_lt k z). apply get_range. auto.
  - exfalso. revert G. unfold GetLaneSRange. destruct (nth_error r (S q)); [|discriminate]. destruct (nth_error (ph_ranges p) k); discriminate.
Qed.
Lemma loop_dichotomy e i is acc : i < n -> suffix e ((S q, i) :: is) acc ->
  (phase_reachable net r (S q) /\ found_at e (S n) (pred_loop net (S n) r (S q) i acc)) \/
  (~ phase_reachable net r (S q) /\ (pred_loop net (S n) r (S q) i acc = Throw \/ exists acc', pred_loop net (S n) r (S q) i acc = Ok (None, acc', 0))).
Proof.
  intros L S.
  assert (PR : phase_reachable net r (Datatypes.S q) <-> exists j, j < n /\ haspred (Datatypes.S q) j).
  { split.
    - intros (q' & a & b & y & x & Eq & Y & X & T). exists b. split; [apply (valid_lt b x); auto|]. exists q', a, y, x. auto.
    - intros (b & _ & (q' & a & y & x & Eq & Y & X & T)). exists q', a, b, y, x. auto. }
  destruct (any_pred_spec q (seq (i + 1) (n - (i + 1)))) as (b1 & _ & Sb1). { intros j J. apply in_seq in J. apply valid. lia. }
  destruct b1.
  { left. destruct (proj1 Sb1 eq_refl) as (j & J & H). apply in_seq in J. split; [apply PR; exists j; split; auto; lia|].
    apply (loop_left e (j - i) i j is); auto; lia. }
  assert (U : forall k, i < k < n -> ~ haspred (Datatypes.S q) k).
  { intros k K H. assert (false = true) by (apply Sb1; exists k; split; auto; apply in_seq; lia). discriminate. }
  destruct (any_pred_spec q (seq 0 (i + 1))) as (b2 & _ & Sb2). { intros j J. apply in_seq in J. apply valid. lia. }
  destruct b2.
  { left. destruct (proj1 Sb2 eq_refl) as (j & J & H). apply in_seq in J. split; [apply PR; exists j; split; auto; lia|].
    apply (loop_right e (i - j) i j is); auto; lia. }
  right. assert (V : forall j, j < n -> ~ haspred (Datatypes.S q) j).
  { intros j J H. destruct (Nat.le_gt_cases j i) as [K|K]; [|apply (U j); auto; lia].
    assert (false = true) by (apply Sb2; exists j; split; auto; apply in_seq; lia). discriminate. }
  split; [rewrite PR; intros (j & J & H); apply (V j); auto|]. apply loop_none; auto.
Qed.
End Phase.

Lemma phase_size p i x : range_at r p i x -> exists ph, nth_error r p = Some ph /\ i < length (ph_ranges ph).
Proof. intros (ph & A & B). exists ph. split; auto. apply nth_error_Some. congruence. Qed.

(** The route computed so far, with the current index still to be added. *)
Definition pending (e cur : idx) (acc : list lsrange) : Prop :=
  exists is, consecutive (hop net r) (cur :: is) /\ Forall2 (fun i x => range_at r (fst i) (snd i) x) is acc /\ last (cur :: is) cur = e.

Lemma last_any2 {A} (a : A) l d d' : last (a :: l) d = last (a :: l) d'.
Proof. revert a. induction l as [|b l IH]; intro a; [reflexivity|]. apply IH. Qed.

Lemma phase_loop_spec e sp : forall b cur acc x, sp <= fst cur -> fst cur - sp < b -> range_at r (fst cur) (snd cur) x -> pending e cur acc ->
  ((forall p, sp < p <= fst cur -> phase_reachable net r p) ->
     exists i acc' y, phase_loop net b r sp cur acc = Ok ((sp, i), acc') /\ range_at r sp i y /\ pending e (sp, i) acc') /\
  ((exists p, sp < p <= fst cur /\ ~ phase_reachable net r p) -> phase_loop net b r sp cur acc = Throw).
Proof.
  induction b as [|b IH]; intros [p i] acc x L B X P; cbn [fst snd] in *; [lia|].
  cbn [phase_loop fst snd]. destruct (Nat.eqb_spec p sp) as [->|N].
  { split; [|intros (q & Q & _); lia]. intros _. exists i, acc, x. auto. }
  destruct p as [|q]; [lia|]. pose proof (proj2 (get_range _ _ _) X) as G. rewrite G. cbn [obind].
  destruct (phase_size _ _ _ X) as (ph & Hp & Hi). rewrite Hp.
  destruct P as (is & C & F & La).
  assert (S0 : suffix e ((S q, i) :: is) (x :: acc)).
  { split; auto. split; [constructor; auto|]. exists (S q, i), is. auto. }
  destruct (loop_dichotomy q (length (ph_ranges ph)) (ex_intro _ ph (conj Hp eq_refl)) e i is (x :: acc) Hi S0)
    as [[R (j & i' & is' & acc' & b' & E & S1 & H & (y & Y))]|[R E]].
  - rewrite E. cbn [obind].
    assert (P' : pending e (q, j) acc').
    { destruct S1 as (C1 & F1 & (k & ks & Ek & La1)). exists ((S q, i') :: is'). split; [constructor; auto|]. split; auto.
      rewrite <- La1. change (last ((S q, i') :: is') (q, j) = last ((S q, i') :: is') k). apply last_any2. }
    destruct (IH (q, j) acc' y ltac:(cbn; lia) ltac:(cbn; lia) Y P') as [A1 A2]. cbn [fst] in A1, A2. split.
    + intro H'. apply A1. intros p Hpp. apply H'. lia.
    + intros (p & Hpp & Hn). apply A2. exists p. split; auto. destruct (Nat.eq_dec p (S q)) as [->|]; [contradiction|lia].
  - split.
    + intro H'. exfalso. apply R. apply H'. lia.
    + intros _. destruct E as [E|(acc' & E)]; rewrite E; reflexivity.
Qed.

Lemma phase_loop_back sp : forall b cur acc x, fst cur < sp -> range_at r (fst cur) (snd cur) x -> (exists e, pending e cur acc) ->
  phase_loop net b r sp cur acc = Throw.
Proof.
  induction b as [|b IH]; intros [p i] acc x L X (e & P); cbn [fst snd phase_loop] in *; destruct (Nat.eqb_spec p sp); try lia; auto.
  pose proof (proj2 (get_range _ _ _) X) as G. rewrite G. cbn [obind]. destruct (phase_size _ _ _ X) as (ph & Hp & Hi). rewrite Hp.
  destruct p as [|q]; [reflexivity|]. destruct P as (is & C & F & La).
  assert (S0 : suffix e ((S q, i) :: is) (x :: acc)).
  { split; auto. split; [constructor; auto|]. exists (S q, i), is. auto. }
  destruct (loop_dichotomy q (length (ph_ranges ph)) (ex_intro _ ph (conj Hp eq_refl)) e i is (x :: acc) Hi S0)
    as [[R (j & i' & is' & acc' & b' & E & S1 & H & (y & Y))]|[R E]].
  - rewrite E. cbn [obind]. apply (IH (q, j) acc' y); cbn; auto; try lia. exists e.
    destruct S1 as (C1 & F1 & (k & ks & Ek & La1)). exists ((S q, i') :: is'). split; [constructor; auto|]. split; auto.
    rewrite <- La1. change (last ((S q, i') :: is') (q, j) = last ((S q, i') :: is') k). apply last_any2.
  - destruct E as [E|(acc' & E)]; rewrite E; reflexivity.
Qed.

Lemma switch_loop_spec e p si s : range_at r p si s -> forall d fuel i acc x, (i - si) + (si - i) = d -> d < fuel -> range_at r p i x -> pending e (p, i) acc ->
  exists l, switch_loop net fuel r (p, si) (p, i) acc = Ok l /\ trail net r (p, si) e l.
Proof.
  intro Hs. induction d as [|d IH]; intros fuel i acc x D L X P; (destruct fuel as [|fuel]; [lia|]).
  - assert (i = si) by lia. subst i. cbn [switch_loop fst snd]. rewrite (proj2 (get_range _ _ _) X). cbn [obind]. rewrite (relation_same p si si x x X X).
    unfold same_phase_rel. rewrite Nat.eqb_refl. cbn [obind]. exists (x :: acc). split; auto.
    destruct P as (is & C & F & La). exists ((p, si) :: is). split; auto.
  - assert (N : i <> si) by lia. cbn [switch_loop fst snd].
    rewrite (proj2 (get_range _ _ _) X), (proj2 (get_range _ _ _) Hs). cbn [obind]. rewrite (relation_same p si i s x Hs X). cbn [obind].
    destruct P as (is & C & F & La).
    assert (Size : forall k, k < Nat.max i si + 1 -> exists z, range_at r p k z).
    { intros k K. destruct X as (ph & A & B). destruct Hs as (ph' & A' & B'). rewrite A in A'. inversion A'; subst ph'.
      assert (i < length (ph_ranges ph)) by (apply nth_error_Some; congruence). assert (si < length (ph_ranges ph)) by (apply nth_error_Some; congruence).
      destruct (nth_error (ph_ranges ph) k) as [z|] eqn:Z; [exists z, ph; auto|]. apply nth_error_None in Z. lia. }
    assert (Pend : forall k, hop net r (p, k) (p, i) -> pending e (p, k) (x :: acc)).
    { intros k H. exists ((p, i) :: is). split; [constructor; auto|]. split; [constructor; auto|].
      change (last ((p, i) :: is) (p, k) = e). rewrite <- La. apply last_any2. }
    destruct (Nat.lt_ge_cases i si) as [Lt|Ge].
    + assert (K : exists k, same_phase_rel si i = k /\ (k = kRight \/ k = kAdjacentRight)).
      { eexists. split; [reflexivity|]. unfold same_phase_rel. destruct (Nat.eqb_spec si i); [lia|]. destruct (Nat.eqb_spec si (i + 1)); auto.
        destruct (Nat.ltb_spec (i + 1) si); auto. lia. }
      destruct K as (k & -> & Hk). destruct (Size (S i) ltac:(lia)) as (z & Z).
      destruct (IH fuel (S i) (x :: acc) z) as (l & E & T); try lia; auto. { apply Pend. left. cbn. auto. }
      exists l. split; auto. cbn [move]. destruct Hk as [-> | ->]; auto.
    + assert (K : exists k, same_phase_rel si i = k /\ (k = kLeft \/ k = kAdjacentLeft)).
      { eexists. split; [reflexivity|]. unfold same_phase_rel. destruct (Nat.eqb_spec si i); [lia|]. destruct (Nat.eqb_spec si (i + 1)); [lia|].
        destruct (Nat.ltb_spec (i + 1) si); [lia|]. destruct (Nat.eqb_spec (si + 1) i); auto. }
      destruct K as (k & -> & Hk). destruct i as [|i]; [lia|]. destruct (Size i ltac:(lia)) as (z & Z).
      destruct (IH fuel i (x :: acc) z) as (l & E & T); try lia; auto. { apply Pend. left. cbn. auto. }
      exists l. split; auto. cbn [move]. destruct Hk as [-> | ->]; auto.
Qed.

Lemma compute_lane_s_route_spec fuel start e ep si ei : last_end r = Ok e ->
  (0 <= ps (at_pos start))%Q -> (0 <= ps (at_pos e))%Q ->
  resolves net r (mk_lsrange (at_lane start) (mk_srange (ps (at_pos start)) (ps (at_pos start)))) si ->
  ep = mk_lsrange (at_lane e) (mk_srange (ps (at_pos e)) (ps (at_pos e))) -> resolves net r ep ei ->
  (forall ph, nth_error r (fst si) = Some ph -> length (ph_ranges ph) <= fuel) ->
  (fst si <= fst ei /\ (forall p, fst si < p <= fst ei -> phase_reachable net r p) ->
     exists l, ComputeLaneSRoute net fuel r start = Ok l /\ trail net r si ei l) /\
  (fst ei < fst si \/ (exists p, fst si < p <= fst ei /\ ~ phase_reachable net r p) -> ComputeLaneSRoute net fuel r start = Throw).
Proof.
  intros El S0 E0 Rs Eep Re Fu.
  assert (Pt : forall p, (0 <= ps (at_pos p))%Q -> point p = Ok (mk_lsrange (at_lane p) (mk_srange (ps (at_pos p)) (ps (at_pos p))))).
  { intros p H. unfold point, SRange. destruct (Qleb_spec 0 (ps (at_pos p))); [|lra]. reflexivity. }
  assert (Ls : FindLaneSRangeIndex net r (mk_lsrange (at_lane start) (mk_srange (ps (at_pos start)) (ps (at_pos start)))) = Some si)
    by (apply lookup_some; auto; split; auto).
  assert (Le : FindLaneSRangeIndex net r ep = Some ei) by (subst ep; apply lookup_some; auto; split; auto).
  unfold ComputeLaneSRoute. rewrite El. cbn [obind]. rewrite (Pt e E0), (Pt start S0). cbn [obind]. rewrite Ls. rewrite <- Eep, Le.
  destruct Rs as ((xs & Xs & _) & _). destruct Re as ((xe & Xe & _) & _).
  assert (P0 : pending ei ei []) by (exists []; split; [constructor|]; split; [constructor|]; reflexivity).
  destruct (phase_size _ _ _ Xe) as (phe & He & _). assert (Lr : fst ei < length r) by (apply nth_error_Some; congruence).
  split.
  - intros [L R]. destruct (phase_loop_spec ei (fst si) (S (length r - fst si)) ei [] xe L ltac:(lia) Xe P0) as [A _].
    destruct (A R) as (i & acc & y & E & Y & P). rewrite E. cbn [obind fst snd]. destruct si as [p s]. cbn [fst snd] in *.
    destruct (phase_size _ _ _ Xs) as (ph & Hp & Hs). destruct (phase_size _ _ _ Y) as (ph' & Hp' & Hi). rewrite Hp in Hp'. inversion Hp'; subst ph'.
    specialize (Fu ph Hp). apply (switch_loop_spec ei p s xs Xs ((i - s) + (s - i)) fuel i acc y); auto. lia.
  - intros [L|R].
    + rewrite (phase_loop_back (fst si) _ ei [] xe L Xe (ex_intro _ ei P0)). reflexivity.
    + assert (L : fst si <= fst ei) by (destruct R as (p & Hp & _); lia).
      destruct (phase_loop_spec ei (fst si) (S (length r - fst si)) ei [] xe L ltac:(lia) Xe P0) as [_ B]. rewrite (B R). reflexivity.
Qed.

(** Whatever is returned consists of ranges of the route. *)
Definition on_route (x : lsrange) : Prop := exists p i, range_at r p i x.
End Route.

Section Members.
Variable net : network.
Variable r : list phase.
Lemma pred_loop_members p : forall b i acc o acc' k, Forall (on_route r) acc -> pred_loop net b r p i acc = Ok (o, acc', k) -> Forall (on_route r) acc'.
Proof.
  induction b as [|b IH]; intros i acc o acc' k F E; cbn [pred_loop] in E; [congruence|].
  destruct (FindStraightPredecessor net r p i) as [[q|]| |]; cbn [obind] in E; try discriminate; [congruence|].
  destruct (FindDirection net r p i) as [d| |]; cbn [obind] in E; try discriminate. destruct (move d i) as [i'|]; [|discriminate].
  destruct (GetLaneSRange r p i') as [x| |] eqn:G; cbn [obind] in E; try discriminate.
  apply (IH i' (x :: acc) o acc' k); auto. constructor; auto. exists p, i'. apply get_range; auto.
Qed.
Lemma phase_loop_members sp : forall b cur acc cur' acc', Forall (on_route r) acc -> phase_loop net b r sp cur acc = Ok (cur', acc') -> Forall (on_route r) acc'.
Proof.
  induction b as [|b IH]; intros cur acc cur' acc' F E; cbn [phase_loop] in E; destruct (Nat.eqb (fst cur) sp); try discriminate; [congruence|].
  destruct (GetLaneSRange r (fst cur) (snd cur)) as [x| |] eqn:G; cbn [obind] in E; try discriminate.
  destruct (nth_error r (fst cur)) as [ph|]; [|discriminate].
  destruct (pred_loop net (S (length (ph_ranges ph))) r (fst cur) (snd cur) (x :: acc)) as [[[o acc2] k]| |] eqn:P; cbn [obind] in E; try discriminate.
  assert (F2 : Forall (on_route r) acc2).
  { apply (pred_loop_members _ _ _ _ _ _ _ ) in P; auto. constructor; auto. exists (fst cur), (snd cur). apply get_range; auto. }
  destruct o as [q|]; [|discriminate]. destruct k; [discriminate|]. apply (IH q acc2 cur' acc'); auto.
Qed.
Lemma switch_loop_members st : forall fuel cur acc l, Forall (on_route r) acc -> switch_loop net fuel r st cur acc = Ok l -> Forall (on_route r) l.
Proof.
  induction fuel as [|fuel IH]; intros cur acc l F E; cbn [switch_loop] in E; [discriminate|].
  destruct (GetLaneSRange r (fst cur) (snd cur)) as [x| |] eqn:G; cbn [obind] in E; try discriminate.
  destruct (GetLaneSRange r (fst st) (snd st)) as [s| |]; cbn [obind] in E; try discriminate.
  assert (F2 : Forall (on_route r) (x :: acc)) by (constructor; auto; exists (fst cur), (snd cur); apply get_range; auto).
  destruct (ComputeLaneSRangeRelation net r s x) as [k| |]; cbn [obind] in E; try discriminate.
  destruct k; try discriminate; try (inversion E; subst; exact F2);
    (destruct (move _ (snd cur)) as [i|]; [|discriminate]; apply (IH _ _ _ F2 E)).
Qed.
Lemma lane_s_route_members fuel start l : ComputeLaneSRoute net fuel r start = Ok l -> Forall (on_route r) l.
Proof.
  unfold ComputeLaneSRoute. destruct (last_end r) as [e| |]; cbn [obind]; try discriminate.
  destruct (point e) as [ep| |]; cbn [obind]; try discriminate. destruct (point start) as [sp| |]; cbn [obind]; try discriminate.
  destruct (FindLaneSRangeIndex net r sp) as [si|]; [|discriminate]. destruct (FindLaneSRangeIndex net r ep) as [ei|]; [|discriminate].
  destruct (phase_loop net (S (length r - fst si)) r (fst si) ei []) as [[c a]| |] eqn:P; cbn [obind fst snd]; try discriminate.
  intro E. apply (switch_loop_members _ _ _ _ _ (phase_loop_members _ _ _ _ _ _ (Forall_nil _) P) E).
Qed.
End Members.

(** ** Positions *)
Section Positions.
Variable net : network.

Lemma validate_spec p l tol : (0 <= tol)%Q -> (forall x, In x l -> range_ok x) -> (0 <= ps (at_pos p))%Q ->
  exists b, ValidatePosition p l tol = Ok b /\ (b = true <-> exists x, In x l /\ covers tol x (point_range p)).
Proof.
  intros T. induction l as [|x l IH]; intros R P; cbn [ValidatePosition].
  - exists false. split; auto. split; [discriminate|]. intros (x & [] & _).
  - destruct IH as (b & Eb & Sb); auto. { intros; apply R; right; auto. }
    destruct (Nat.eqb_spec (at_lane p) (lane_id x)) as [E|N].
    + assert (Es : SRange (ps (at_pos p)) (ps (at_pos p)) = Ok (mk_srange (ps (at_pos p)) (ps (at_pos p)))).
      { unfold SRange. destruct (Qleb_spec 0 (ps (at_pos p))); [reflexivity|lra]. }
      rewrite Es. cbn [obind].
      assert (Ok1 : range_ok (point_range p)) by (split; auto).
      assert (Ok2 : range_ok x) by (apply R; left; auto).
      pose proof (contains_covers tol x (point_range p) T Ok2 Ok1) as C.
      destruct (contains_ends (s_range x) (mk_srange (ps (at_pos p)) (ps (at_pos p))) tol) as (c & Ec & _); [auto|exact Ok1|intro; lra|].
      unfold contains, LContains, point_range in C. cbn [lane_id s_range] in C. rewrite <- E, Nat.eqb_refl in C. rewrite Ec in C |- *. cbn [obind].
      destruct c.
      * exists true. split; auto. split; auto. intros _. exists x. split; [left; auto|]. apply C. auto.
      * exists b. split; auto. rewrite Sb. split; [intros (y & A & B); exists y; split; [right|]; auto|].
        intros (y & [<-|A] & B); [|eauto]. apply C in B. discriminate.
    + exists b. split; auto. rewrite Sb. split; [intros (y & A & B); exists y; split; [right|]; auto|].
      intros (y & [<-|A] & B); [|eauto]. destruct B as [B _]. cbn in B. congruence.
Qed.

Lemma candidate_spec tol v x : (0 <= tol)%Q -> range_ok x -> nearest_ok net v ->
  exists p n d, candidate net tol v x = Ok (mk_rpos (lane_id x) p, n, d) /\ offers net tol v x p n d.
Proof.
  intros T R Nn. unfold candidate. destruct (nearest net (lane_id x) v) as [[lp near] dist] eqn:E.
  destruct (validate_spec (mk_rpos (lane_id x) lp) [x] tol T) as (b & Eb & Sb).
  { intros y [<-|[]]; auto. } { cbn. eapply Nn; eauto. }
  rewrite Eb. cbn [obind]. destruct b.
  - exists lp, near, dist. split; auto. exists lp, near, dist. split; auto. left. split; auto.
    destruct (proj1 Sb eq_refl) as (y & [<-|[]] & C). auto.
  - assert (Nc : ~ covers tol x (point_range (mk_rpos (lane_id x) lp))).
    { intro C. assert (false = true) by (apply Sb; exists x; split; [left|]; auto). discriminate. }
    eexists. eexists. eexists. split; [reflexivity|]. exists lp, near, dist. split; auto. right. split; auto. split; auto. split; auto.
    destruct (Qleb_spec (Qabs (ps lp - s0 (s_range x))) (Qabs (ps lp - s1 (s_range x)))) as [L|L]; auto.
Qed.
Lemma candidates_spec tol v l : (0 <= tol)%Q -> (forall x, In x l -> range_ok x) -> nearest_ok net v ->
  exists cs, candidates net tol v l = Ok cs /\
    Forall2 (fun x c => exists p n d, c = (mk_rpos (lane_id x) p, n, d) /\ offers net tol v x p n d) l cs.
Proof.
  intros T R Nn. induction l as [|x l IH]; [exists []; split; auto; constructor|].
  destruct IH as (cs & E & F); [intros; apply R; right; auto|].
  destruct (candidate_spec tol v x T (R x (or_introl eq_refl)) Nn) as (p & n & d & Ec & O).
  exists ((mk_rpos (lane_id x) p, n, d) :: cs). cbn [candidates]. rewrite Ec, E. cbn. split; auto. constructor; eauto 6.
Qed.

Lemma best_from_spec {A} (f : A -> result) : forall l i0 c0 k, let '(i, x) := best_from net f (i0, c0) k l in
  ((i = i0 /\ x = c0) \/ (k <= i /\ nth_error l (i - k) = Some x)) /\
  f x = pick (bounds net) (f c0) (map f l).
Proof.
  induction l as [|y l IH]; intros i0 c0 k; cbn [best_from map].
  - split; auto.
  - unfold pick. cbn [fold_left snd]. destruct (IsCloser (bounds net) (f y) (f c0)) eqn:C.
    + specialize (IH k y (S k)). destruct (best_from net f (k, y) (S k) l) as [i x]. destruct IH as [[[-> ->]|[L N]] E].
      * split; [|exact E]. right. split; [lia|]. rewrite Nat.sub_diag. reflexivity.
      * split; [|exact E]. right. split; [lia|]. replace (i - k) with (S (i - S k)) by lia. auto.
    + specialize (IH i0 c0 (S k)). destruct (best_from net f (i0, c0) (S k) l) as [i x]. destruct IH as [[[-> ->]|[L N]] E].
      * split; [|exact E]. left. auto.
      * split; [|exact E]. right. split; [lia|]. replace (i - k) with (S (i - S k)) by lia. auto.
Qed.
Lemma best_of {A} (f : A -> result) c cs : let '(i, x) := best_from net f (0, c) 1 cs in
  nth_error (c :: cs) i = Some x /\
  forall y, In y (c :: cs) -> (r_dist (f x) <= r_dist (f y) + nQ (length cs) * eps)%Q.
Proof.
  pose proof (best_from_spec f cs 0 c 1) as B. destruct (best_from net f (0, c) 1 cs) as [i x]. destruct B as [I E]. split.
  - destruct I as [[-> ->]|[L N]]; auto. destruct i as [|i]; [lia|]. cbn in N. rewrite Nat.sub_0_r in N. auto.
  - intros y Hy. destruct (pick_spec (bounds net) (map f cs) (f c)) as (_ & B1 & B2). rewrite map_length in *. rewrite E.
    destruct Hy as [<-|Hy]; auto. apply B2. apply in_map; auto.
Qed.

Lemma forall2_length {A B} (R : A -> B -> Prop) l l' : Forall2 R l l' -> length l = length l'.
Proof. induction 1; cbn; auto. Qed.
Lemma phase_position_spec p v : (0 <= ph_tol p)%Q -> ph_ranges p <> [] -> (forall x, In x (ph_ranges p) -> range_ok x) -> nearest_ok net v ->
  exists q x, FindPhasePositionI net p v = Ok q /\ nth_error (ph_ranges p) (pp_index q) = Some x /\
    offers net (ph_tol p) v x (pp_pos q) (pp_near q) (pp_dist q) /\
    forall y p' n' d', In y (ph_ranges p) -> offers net (ph_tol p) v y p' n' d' -> (pp_dist q <= d' + nQ (length (ph_ranges p) - 1) * eps)%Q.
Proof.
  intros T Ne R Nn. unfold FindPhasePositionI. destruct (candidates_spec (ph_tol p) v (ph_ranges p) T R Nn) as (cs & E & F). rewrite E. cbn [obind].
  pose proof (forall2_length _ _ _ F) as Len.
  destruct cs as [|c cs]; [destruct (ph_ranges p); [congruence|discriminate]|].
  pose proof (best_of as_result c cs) as B. destruct (best_from net as_result (0, c) 1 cs) as [i [[rp n] d]]. destruct B as [N M].
  assert (X : exists x, nth_error (ph_ranges p) i = Some x /\ exists p0 n0 d0, (rp, n, d) = (mk_rpos (lane_id x) p0, n0, d0) /\ offers net (ph_tol p) v x p0 n0 d0).
  { clear - F N. revert i N. induction F as [|x c' l l' H F IH]; intros [|i] N; cbn in *; try discriminate; eauto.
    inversion N; subst. destruct H as (p0 & n0 & d0 & -> & O). exists x. eauto 8. }
  destruct X as (x & Nx & p0 & n0 & d0 & Ec & O). inversion Ec; subst. cbn [at_pos].
  exists (mk_ppos i p0 n0 d0), x. split; auto. split; auto. split; auto.
  intros y p' n' d' Hy Oy.
  assert (Y : exists c', In c' (c :: cs) /\ exists p1 n1 d1, c' = (mk_rpos (lane_id y) p1, n1, d1) /\ offers net (ph_tol p) v y p1 n1 d1).
  { clear - F Hy. induction F as [|z c' l l' H F IH]; [contradiction|]. destruct Hy as [->|Hy]; [exists c'; split; [left|]; auto|].
    destruct (IH Hy) as (c'' & I & H'). exists c''. split; [right|]; auto. }
  destruct Y as (c' & Ic & p1 & n1 & d1 & -> & Oy1). specialize (M _ Ic). cbn [as_result r_dist pp_dist] in M |- *.
  assert (Ed : (d1 == d')%Q).
  { destruct Oy as (lp & near & dist & E1 & H1). destruct Oy1 as (lp1 & near1 & dist1 & E2 & H2). rewrite E1 in E2. inversion E2; subst.
    destruct H1 as [(C & -> & -> & ->)|(C & -> & -> & [[-> L]|[-> L]])];
    destruct H2 as [(C' & -> & -> & ->)|(C' & -> & -> & [[-> L']|[-> L']])]; try contradiction; try reflexivity; lra. }
  cbn [length] in Len. rewrite Len. replace (S (length cs) - 1) with (length cs) by lia. lra.
Qed.

Definition phase_ok (p : phase) : Prop := (0 <= ph_tol p)%Q /\ ph_ranges p <> [] /\ forall x, In x (ph_ranges p) -> range_ok x.

Lemma phase_positions_spec r v : (forall p, In p r -> phase_ok p) -> nearest_ok net v ->
  exists cs, phase_positions net r v = Ok cs /\
    Forall2 (fun p c => FindPhasePositionI net p v = Ok (fst c) /\ nth_error (ph_ranges p) (pp_index (fst c)) = Some (snd c)) r cs.
Proof.
  intros H Nn. induction r as [|p r IH]; [exists []; split; auto; constructor|].
  destruct IH as (cs & E & F); [intros; apply H; right; auto|]. destruct (H p (or_introl eq_refl)) as (T & Ne & R).
  destruct (phase_position_spec p v T Ne R Nn) as (q & x & Eq & Nx & _). exists ((q, x) :: cs). cbn [phase_positions]. rewrite Eq. cbn [obind].
  rewrite Nx, E. cbn. split; auto.
Qed.
Lemma route_position_spec r v : r <> [] -> (forall p, In p r -> phase_ok p) -> nearest_ok net v ->
  exists i q p, FindRoutePositionI net r v = Ok (i, q) /\ nth_error r i = Some p /\ FindPhasePositionI net p v = Ok q /\
    forall p' q', In p' r -> FindPhasePositionI net p' v = Ok q' -> (pp_dist q <= pp_dist q' + nQ (length r - 1) * eps)%Q.
Proof.
  intros Ne H Nn. destruct (phase_positions_spec r v H Nn) as (cs & E & F). unfold FindRoutePositionI. rewrite E. cbn [obind].
  pose proof (forall2_length _ _ _ F) as Len. destruct cs as [|c cs]; [destruct r; [congruence|discriminate]|].
  pose proof (best_of ppos_result c cs) as B. destruct (best_from net ppos_result (0, c) 1 cs) as [i [q x]]. destruct B as [N M].
  assert (X : exists p, nth_error r i = Some p /\ FindPhasePositionI net p v = Ok q).
  { clear - F N. revert i N. induction F as [|p c' l l' H F IH]; intros [|i] N; cbn in *; try discriminate; eauto.
    inversion N; subst. destruct H as [H _]. cbn in H. eauto. }
  destruct X as (p & Np & Ep). exists i, q, p. split; auto. split; auto. split; auto. intros p' q' Hp Eq.
  assert (Y : exists c', In c' (c :: cs) /\ fst c' = q').
  { clear - F Hp Eq. induction F as [|z c' l l' H F IH]; [contradiction|]. destruct Hp as [->|Hp].
    - destruct H as [H _]. rewrite Eq in H. inversion H. exists c'. split; [left|]; auto.
    - destruct (IH Hp) as (c'' & I & H'). exists c''. split; [right|]; auto. }
  destruct Y as (c' & Ic & <-). specialize (M _ Ic). cbn [ppos_result r_dist fst] in M.
  cbn [length] in Len. rewrite Len. replace (S (length cs) - 1) with (length cs) by lia. exact M.
Qed.

Lemma find_index_spec {A} (f : A -> bool) l : (exists x, In x l /\ f x = true) ->
  exists x, nth_error l (find_index f l) = Some x /\ f x = true /\ forall j y, j < find_index f l -> nth_error l j = Some y -> f y = false.
Proof.
  induction l as [|a l IH]; intros (x & I & F); [contradiction|]. cbn [find_index]. destruct (f a) eqn:E.
  - exists a. split; auto. split; auto. lia.
  - destruct I as [->|I]; [congruence|]. destruct IH as (y & N & T & U); [eauto|]. exists y. split; auto. split; auto.
    intros [|j] z L Z; cbn in Z; [congruence|]. apply (U j); auto. lia.
Qed.
Lemma find_phase_spec : forall r q k, (forall p, In p r -> phase_ok p) -> (0 <= ps (at_pos q))%Q ->
  exists o, find_phase r q k = Ok o /\
    match o with
    | Some (i, p) => k <= i /\ nth_error r (i - k) = Some p /\ (exists x, In x (ph_ranges p) /\ covers (ph_tol p) x (point_range q)) /\
        (forall j p', j < i - k -> nth_error r j = Some p' -> forall x, In x (ph_ranges p') -> ~ covers (ph_tol p') x (point_range q))
    | None => forall p x, In p r -> In x (ph_ranges p) -> ~ covers (ph_tol p) x (point_range q)
    end.
Proof.
  induction r as [|p r IH]; intros q k H P; cbn [find_phase].
  - exists None. split; [reflexivity|]. intros p x [].
  - destruct (H p (or_introl eq_refl)) as (T & Ne & R). destruct (validate_spec q (ph_ranges p) (ph_tol p) T R P) as (b & Eb & Sb). rewrite Eb. cbn [obind].
    destruct b.
    + exists (Some (k, p)). split; auto. rewrite Nat.sub_diag. split; auto. split; auto. split; [apply Sb; auto|]. lia.
    + assert (N : forall x, In x (ph_ranges p) -> ~ covers (ph_tol p) x (point_range q)).
      { intros x I C. assert (false = true) by (apply Sb; eauto). discriminate. }
      destruct (IH q (S k)) as (o & Eo & So); auto. { intros; apply H; right; auto. } exists o. split; [exact Eo|]. destruct o as [[i p']|].
      * destruct So as (L & Np & C & U). split; [lia|]. replace (i - k) with (S (i - S k)) by lia. split; auto. split; auto.
        intros [|j] z Lj Z; cbn in Z; [inversion Z; subst; auto|]. apply (U j); auto. lia.
      * intros p0 x [<-|I]; [apply N|apply So; auto].
Qed.

(** ** Connectivity *)
Lemma position_close_iff a b : position_close net a b = true <-> close_positions net a b.
Proof.
  unfold position_close, close_positions. rewrite !andb_true_iff.
  repeat match goal with |- context [Qleb ?x ?y] => destruct (Qleb_spec x y) end; split; intros; try lra; intuition; try discriminate; lra.
Qed.
Lemma end_connected_sound starts e : end_connected net starts e = true ->
  exists s, In s starts /\ close_positions net e s /\ lanes_connected net (at_lane e) (at_lane s).
Proof.
  unfold end_connected. destruct (find _ starts) as [s|] eqn:F.
  - apply find_some in F. destruct F as [I E]. apply Nat.eqb_eq in E. intro H. exists s. split; auto. split; [apply position_close_iff; auto|]. left; auto.
  - intro H. apply existsb_exists in H. destruct H as (s & I & C). apply filter_In in I. destruct I as [I J]. apply existsb_exists in J.
    destruct J as ((l & f) & Hl & E). apply Nat.eqb_eq in E. cbn in E. exists s. split; auto. split; [apply position_close_iff; auto|].
    right. exists (closest_end net e), f. rewrite E. auto.
Qed.
Lemma phases_connected_sound l : phases_connected net l = true -> forall k a b, nth_error l k = Some a -> nth_error l (S k) = Some b ->
  length (ph_ends a) = length (ph_starts b) /\ forall e, In e (ph_ends a) -> end_connected net (ph_starts b) e = true.
Proof.
  induction l as [|p l IH]; intros H k a b A B; [destruct k; discriminate|].
  destruct l as [|p' l]; [destruct k; cbn in B; [discriminate|destruct k; discriminate]|].
  cbn [phases_connected] in H. rewrite !andb_true_iff in H. destruct H as [[H1 H2] H3].
  destruct k as [|k]; [|apply (IH H3 k); auto]. cbn in A, B. inversion A; inversion B; subst. split; [apply Nat.eqb_eq; auto|].
  intros e I. rewrite forallb_forall in H2. auto.
Qed.
Lemma phases_connected_complete l : (forall k a b, nth_error l k = Some a -> nth_error l (S k) = Some b ->
  length (ph_ends a) = length (ph_starts b) /\ forall e, In e (ph_ends a) -> end_connected net (ph_starts b) e = true) -> phases_connected net l = true.
Proof.
  induction l as [|p l IH]; intro H; auto. destruct l as [|p' l]; auto. cbn [phases_connected]. rewrite !andb_true_iff.
  destruct (H 0 p p' eq_refl eq_refl) as [H1 H2]. split; [split|].
  - apply Nat.eqb_eq; auto.
  - apply forallb_forall; auto.
  - apply IH. intros k a b A B. apply (H (S k)); auto.
Qed.
Lemma all_ok_true {A} (f : A -> outcome bool) l : all_ok f l = Ok true <-> forall x, In x l -> f x = Ok true.
Proof.
  induction l as [|x l IH]; cbn [all_ok]; [split; auto; intros _ x []|]. split.
  - destruct (f x) as [[|]| |] eqn:E; cbn [obind]; try discriminate. rewrite IH. intros H y [<-|I]; auto.
  - intro H. rewrite (H x (or_introl eq_refl)). cbn [obind]. apply IH. intros; apply H; right; auto.
Qed.
Lemma all_adjacent_spec l : all_adjacent net l = true -> forall i x y, nth_error l i = Some x -> nth_error l (S i) = Some y -> ranges_adjacent net x y = true.
Proof.
  induction l as [|a l IH]; intros H i x y X Y; [destruct i; discriminate|]. destruct l as [|b l]; [destruct i as [|[|]]; discriminate|].
  cbn [all_adjacent] in H. apply andb_true_iff in H. destruct H as [H1 H2]. destruct i as [|i]; [|apply (IH H2 i); auto].
  cbn in X, Y. congruence.
Qed.
End Positions.
