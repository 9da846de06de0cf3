From Coq Require Import List QArith Qround Qabs Bool Arith ZArith Lqa Lia Permutation.
From Verif Require Import Base KdTree_Model KdTree_Spec KdTree_Proofs Positions_Model Positions_Spec.
Import ListNotations.
Open Scope Q_scope.

Section Pos.
Variable lane_bounds : nat -> Q -> Q * Q.
Variable to_lane : nat -> result.
Notation closer := (IsCloser lane_bounds).
Notation pickf := (pick lane_bounds).

Lemma eps_pos : 0 < eps.
Proof. unfold eps; lra. Qed.
Opaque eps.

(** ** The comparison *)
Lemma closer_irrefl a : closer a a = false.
Proof.
  unfold IsCloser. pose proof eps_pos. qcases; try lra; auto.
  destruct (within_bounds lane_bounds a); simpl; auto.
Qed.

Lemma closer_asym a b : closer a b = true -> closer b a = false.
Proof.
  unfold IsCloser. pose proof eps_pos.
  destruct (Qltb_spec (r_dist a - r_dist b) (- eps)); destruct (Qltb_spec (r_dist b - r_dist a) (- eps)); try lra;
  destruct (Qleb_spec eps (r_dist a - r_dist b)); destruct (Qleb_spec eps (r_dist b - r_dist a)); try lra; auto; try discriminate.
  destruct (within_bounds lane_bounds a), (within_bounds lane_bounds b); simpl; auto;
  destruct (Qltb_spec (Qabs (r_r a)) (Qabs (r_r b))); destruct (Qltb_spec (Qabs (r_r b)) (Qabs (r_r a))); auto; try lra; discriminate.
Qed.

Lemma closer_far a b : r_dist a < r_dist b - eps -> closer a b = true.
Proof. intro H. unfold IsCloser. qcases; auto; lra. Qed.

Lemma closer_bound a b : closer a b = true -> r_dist a < r_dist b + eps.
Proof.
  unfold IsCloser. pose proof eps_pos. destruct (Qltb_spec (r_dist a - r_dist b) (- eps)); [intros; lra|].
  destruct (Qleb_spec eps (r_dist a - r_dist b)); [discriminate|]. intros; lra.
Qed.

Lemma not_closer_bound a b : closer a b = false -> r_dist b <= r_dist a + eps.
Proof.
  unfold IsCloser. destruct (Qltb_spec (r_dist a - r_dist b) (- eps)); [discriminate|]. intros; lra.
Qed.

(** ** The fold *)
Definition nQ (n : nat) : Q := inject_Z (Z.of_nat n).
Lemma nQ_S n : nQ (S n) == nQ n + 1.
Proof. unfold nQ. rewrite Nat2Z.inj_succ, <- Z.add_1_r, inject_Z_plus. reflexivity. Qed.
Lemma nQ_nonneg n : 0 <= nQ n.
Proof. unfold nQ. change 0 with (inject_Z 0). rewrite <- Zle_Qle. lia. Qed.

Lemma pick_spec l : forall init,
  (pickf init l = init \/ In (pickf init l) l) /\
  r_dist (pickf init l) <= r_dist init + nQ (length l) * eps /\
  (forall x, In x l -> r_dist (pickf init l) <= r_dist x + nQ (length l) * eps).
Proof.
  pose proof eps_pos as Ep.
  unfold pick. induction l as [|x l IH]; intro init; simpl fold_left.
  - repeat split; auto. simpl length. change (nQ 0) with 0. lra. simpl; tauto.
  - destruct (IH (if closer x init then x else init)) as (A & B & C). clear IH.
    set (res := fold_left _ l _) in *.
    assert (N : nQ (length (x :: l)) == nQ (length l) + 1) by (simpl length; apply nQ_S).
    pose proof (nQ_nonneg (length l)) as NN.
    assert (NE : nQ (length (x :: l)) * eps == nQ (length l) * eps + eps) by (rewrite N; ring).
    split; [|split].
    + destruct A as [A|A]; [|right; right; exact A].
      rewrite A. destruct (closer x init); [right; left; reflexivity|left; reflexivity].
    + destruct (closer x init) eqn:E.
      * apply closer_bound in E. lra.
      * lra.
    + intros y [Y|Y].
      * subst y. destruct (closer x init) eqn:E; [lra|]. apply not_closer_bound in E. lra.
      * specialize (C y Y). lra.
Qed.

(** ** FindRoadPositions *)
Lemma find_flat rg radius : FindRoadPositions to_lane rg radius =
  throw_unless (match radius with None => true | Some r => Qleb 0 r end)
    (Ok (filter (in_radius radius) (map to_lane (lanes_of rg)))).
Proof.
  unfold FindRoadPositions. destruct (match radius with None => true | Some r => Qleb 0 r end); [|reflexivity].
  unfold throw_unless. f_equal.
  assert (L : forall seg acc, fold_left (fun acc lane => let x := to_lane lane in if in_radius radius x then acc ++ [x] else acc) seg acc
     = acc ++ filter (in_radius radius) (map to_lane seg)).
  { induction seg as [|l seg IH]; intro acc; simpl; [symmetry; apply app_nil_r|].
    rewrite IH. destruct (in_radius radius (to_lane l)); [rewrite <- app_assoc; reflexivity|reflexivity]. }
  assert (J : forall j acc, fold_left (fun acc seg => fold_left (fun acc lane => let x := to_lane lane in if in_radius radius x then acc ++ [x] else acc) seg acc) j acc
     = acc ++ filter (in_radius radius) (map to_lane (concat j))).
  { induction j as [|s j IH]; intro acc; simpl; [symmetry; apply app_nil_r|].
    rewrite IH, L. rewrite map_app, filter_app, app_assoc. reflexivity. }
  assert (R : forall g acc, fold_left (fun acc j => fold_left (fun acc seg => fold_left (fun acc lane => let x := to_lane lane in if in_radius radius x then acc ++ [x] else acc) seg acc) j acc) g acc
     = acc ++ filter (in_radius radius) (map to_lane (lanes_of g))).
  { induction g as [|j g IH]; intro acc; simpl; [symmetry; apply app_nil_r|].
    rewrite IH, J. unfold lanes_of. simpl. rewrite concat_app, map_app, filter_app, app_assoc. reflexivity. }
  rewrite R. reflexivity.
Qed.

Lemma in_radius_iff radius x : in_radius radius x = true <-> radius_ok radius (r_dist x).
Proof. destruct radius; simpl; [apply Qleb_true|tauto]. Qed.

Lemma find_exact rg radius l : FindRoadPositions to_lane rg radius = Ok l ->
  (forall x, In x l <-> exists lane, In lane (lanes_of rg) /\ x = to_lane lane /\ radius_ok radius (r_dist x)).
Proof.
  rewrite find_flat. unfold throw_unless. destruct (match radius with None => true | Some r => Qleb 0 r end); [|discriminate].
  intro E; inversion E; subst; clear E. intro x. rewrite filter_In, in_map_iff, in_radius_iff. split.
  - intros [(lane & <- & I) R]. eauto.
  - intros (lane & I & -> & R). eauto.
Qed.

Lemma NoDup_map_filter {A B} (g : A -> B) (f : A -> bool) (l : list A) : NoDup (map g l) -> NoDup (map g (filter f l)).
Proof.
  induction l as [|a l IH]; simpl; intro N; [constructor|]. inversion N; subst.
  destruct (f a); simpl; auto. constructor; auto. intro K. apply H1. apply in_map_iff in K. destruct K as (b & E & I).
  apply filter_In in I. rewrite <- E. apply in_map. tauto.
Qed.

Lemma find_once rg radius l : (forall k, r_lane (to_lane k) = k) -> NoDup (lanes_of rg) ->
  FindRoadPositions to_lane rg radius = Ok l -> NoDup (map r_lane l).
Proof.
  intros Ht N. rewrite find_flat. unfold throw_unless. destruct (match radius with None => true | Some r => Qleb 0 r end); [|discriminate].
  intro E; inversion E; subst; clear E. apply NoDup_map_filter.
  rewrite map_map. erewrite map_ext; [rewrite map_id; exact N|]. exact Ht.
Qed.

Lemma find_throws rg radius : FindRoadPositions to_lane rg radius = Throw <-> exists r, radius = Some r /\ r < 0.
Proof.
  rewrite find_flat. unfold throw_unless. destruct radius as [r|].
  - destruct (Qleb_spec 0 r); split; try discriminate; eauto; intros (x & E & L); try reflexivity. inversion E; subst. lra.
  - split; [discriminate|]. intros (x & E & L). discriminate.
Qed.

(** ** ToRoadPosition *)
Lemma to_road_position_spec rg tol : lanes_of rg <> [] ->
  exists x, ToRoadPosition lane_bounds to_lane rg tol None = Ok x /\
    (exists lane, In lane (lanes_of rg) /\ x = to_lane lane) /\
    (forall lane, In lane (lanes_of rg) -> r_dist x <= r_dist (to_lane lane) + nQ (length (lanes_of rg)) * eps) /\
    ((exists lane, In lane (lanes_of rg) /\ r_dist (to_lane lane) <= tol) -> r_dist x <= tol).
Proof.
  intro N. unfold ToRoadPosition. rewrite find_flat. unfold throw_unless; cbn [obind].
  assert (F : filter (in_radius None) (map to_lane (lanes_of rg)) = map to_lane (lanes_of rg)).
  { generalize (map to_lane (lanes_of rg)). induction l; simpl; congruence. }
  rewrite F; clear F.
  set (all := map to_lane (lanes_of rg)).
  assert (NA : all <> []) by (unfold all; destruct (lanes_of rg); simpl; congruence).
  set (near := FilterRoadPositionResults all (fun x => Qleb (r_dist x) tol)).
  set (filtered := match near with [] => all | _ => near end).
  assert (LA : length all = length (lanes_of rg)) by (unfold all; apply map_length).
  assert (Fsub : forall x, In x filtered -> In x all).
  { unfold filtered. destruct near as [|a n] eqn:E; auto. rewrite <- E. unfold near, FilterRoadPositionResults. intros x I. apply filter_In in I; tauto. }
  assert (Flen : (length filtered <= length all)%nat).
  { unfold filtered. destruct near as [|a n] eqn:E; auto. rewrite <- E. unfold near, FilterRoadPositionResults.
    clear. induction all as [|a l IH]; simpl; auto. destruct (Qleb (r_dist a) tol); simpl; lia. }
  assert (Fne : filtered <> []) by (unfold filtered; destruct near; congruence).
  assert (Fmin : forall x, In x all -> In x filtered \/ (exists y, In y filtered) /\ forall y, In y filtered -> r_dist y <= r_dist x).
  { intros x I. unfold filtered. destruct near as [|a n] eqn:E; [left; exact I|]. rewrite <- E.
    destruct (Qleb_spec (r_dist x) tol) as [H|H].
    - left. unfold near, FilterRoadPositionResults. apply filter_In. split; auto. apply Qleb_true; exact H.
    - right. split; [exists a; rewrite E; left; reflexivity|]. intros y Y. unfold near, FilterRoadPositionResults in Y.
      apply filter_In in Y. destruct Y as [_ Y]. apply Qleb_true in Y. lra. }
  assert (Fnear : (exists y, In y all /\ r_dist y <= tol) -> forall x, In x filtered -> r_dist x <= tol).
  { intros (y & Y & H) x X. unfold filtered in X. destruct near as [|a n] eqn:E.
    - exfalso. assert (In y near). { unfold near, FilterRoadPositionResults. apply filter_In. split; auto. apply Qleb_true; exact H. }
      rewrite E in H0. destruct H0.
    - rewrite <- E in X. unfold near, FilterRoadPositionResults in X. apply filter_In in X. destruct X as [_ X]. apply Qleb_true; exact X. }
  destruct all as [|a0 al] eqn:Eall; [congruence|]. rewrite <- Eall in *. clear Eall.
  clearbody filtered. destruct filtered as [|x0 fl]; [congruence|].
  destruct (pick_spec (x0 :: fl) x0) as (A & B & C).
  set (res := pickf x0 (x0 :: fl)) in *.
  assert (Ires : In res (x0 :: fl)) by (destruct A as [A|A]; [rewrite A; left; reflexivity|exact A]).
  exists res. split; [reflexivity|]. split; [|split].
  - apply Fsub in Ires. apply in_map_iff in Ires. destruct Ires as (lane & E & I). eauto.
  - intros lane I.
    assert (K : nQ (length (x0 :: fl)) * eps <= nQ (length (lanes_of rg)) * eps).
    { rewrite <- LA. pose proof eps_pos.
      assert (nQ (length (x0 :: fl)) <= nQ (length all)). { unfold nQ. rewrite <- Zle_Qle. lia. }
      nra. }
    pose proof (nQ_nonneg (length (lanes_of rg))). pose proof eps_pos.
    assert (0 <= nQ (length (lanes_of rg)) * eps) by nra.
    destruct (Fmin (to_lane lane)) as [J|(_ & J)].
    + apply in_map; exact I.
    + specialize (C _ J). lra.
    + specialize (J res Ires). lra.
  - intros (lane & I & H). apply Fnear; auto. exists (to_lane lane). split; auto. apply in_map; exact I.
Qed.

Lemma to_road_position_hint rg tol l : ToRoadPosition lane_bounds to_lane rg tol (Some l) = Ok (to_lane l).
Proof. reflexivity. Qed.

Lemma to_road_position_empty rg tol : lanes_of rg = [] -> ToRoadPosition lane_bounds to_lane rg tol None = Throw.
Proof. intro E. unfold ToRoadPosition. rewrite find_flat. unfold throw_unless; cbn [obind]. rewrite E. reflexivity. Qed.
End Pos.
Transparent eps.

(** ** Sampling loops *)
Lemma loop_values_ok fuel : forall x to step, 0 < step -> to - x < nQ fuel * step ->
  exists l, loop_values fuel x to step = Ok l /\
    (forall y, In y l -> x <= y /\ y <= to /\ exists n : nat, y == x + nQ n * step) /\
    (forall n : nat, x + nQ n * step <= to -> exists y, In y l /\ y == x + nQ n * step).
Proof.
  induction fuel as [|f IH]; intros x to step Hs Hf; cbn [loop_values].
  - change (nQ 0) with 0 in Hf. destruct (Qleb_spec x to) as [L|L]; [lra|].
    exists []. split; [reflexivity|]. split; [simpl; tauto|]. intros n H.
    pose proof (nQ_nonneg n). assert (0 <= nQ n * step) by nra. lra.
  - destruct (Qleb_spec x to) as [L|L].
    + destruct (IH (x + step) to step Hs) as (l & -> & A & B).
      { rewrite nQ_S in Hf. lra. }
      exists (x :: l). split; [reflexivity|]. split.
      * intros y [Y|Y].
        -- subst y. split; [lra|]. split; [exact L|]. exists 0%nat. change (nQ 0) with 0. lra.
        -- destruct (A y Y) as (A1 & A2 & n & A3). split; [lra|]. split; [exact A2|]. exists (S n). rewrite nQ_S. lra.
      * intros [|n] H.
        -- exists x. split; [left; reflexivity|]. change (nQ 0) with 0. lra.
        -- rewrite nQ_S in H. destruct (B n) as (y & Y & E); [lra|]. exists y. split; [right; exact Y|]. rewrite nQ_S. lra.
    + exists []. split; [reflexivity|]. split; [simpl; tauto|]. intros n H.
      pose proof (nQ_nonneg n). assert (0 <= nQ n * step) by nra. lra.
Qed.

Lemma loop_fuel_enough from to step : 0 < step -> to - from < nQ (loop_fuel from to step) * step.
Proof.
  intro Hs. unfold loop_fuel. rewrite nQ_S. unfold nQ.
  set (q := (to - from) / step).
  assert (E : to - from == q * step). { unfold q. field. lra. }
  pose proof (Qlt_floor q) as F. rewrite inject_Z_plus in F. change (inject_Z 1) with 1 in F.
  assert (G : inject_Z (Qfloor q) <= inject_Z (Z.of_nat (Z.to_nat (Qfloor q)))) by (rewrite <- Zle_Qle; lia).
  rewrite E. nra.
Qed.

Lemma loop_full from to step : 0 < step ->
  exists l, loop_values (loop_fuel from to step) from to step = Ok l /\
    (forall y, In y l -> from <= y /\ y <= to /\ exists n : nat, y == from + nQ n * step) /\
    (forall n : nat, from + nQ n * step <= to -> exists y, In y l /\ y == from + nQ n * step).
Proof. intro H. apply loop_values_ok; auto. apply loop_fuel_enough; auto. Qed.

Lemma oconcat_spec {A B} (f : A -> outcome (list B)) l :
  (forall a, In a l -> exists x, f a = Ok x) ->
  exists r, oconcat (map f l) = Ok r /\ forall b, In b r <-> exists a x, In a l /\ f a = Ok x /\ In b x.
Proof.
  induction l as [|a l IH]; intro H.
  - exists []. split; [reflexivity|]. simpl. intro b; split; [tauto|]. intros (a & _ & [] & _).
  - destruct (H a (or_introl eq_refl)) as (x & E). destruct IH as (r & R & I).
    { intros a' I. apply H. right; exact I. }
    simpl. rewrite E; cbn [obind]. rewrite R; cbn [omap]. eexists; split; [reflexivity|].
    intro b. rewrite in_app_iff, I. split.
    + intros [X|(a' & x' & X1 & X2 & X3)]; [exists a, x; auto|exists a', x'; auto].
    + intros (a' & x' & [X1|X1] & X2 & X3); [left; subst; congruence|right; eauto].
Qed.

Section Kd.
Variable lane_bounds : nat -> Q -> Q * Q.
Variable to_lane : nat -> result.
Variable lane_length : nat -> Q.
Variable to_inertial : nat -> Q -> Q -> Q * Q * Q.

Definition row step lane (s : Q) : outcome (list mpoint) :=
  omap (map (fun r => (to_inertial lane s r, lane)))
    (loop_values (loop_fuel (fst (lane_bounds lane s)) (snd (lane_bounds lane s)) step) (fst (lane_bounds lane s)) (snd (lane_bounds lane s)) step).

Lemma sample_lane_row step lane ss : loop_values (loop_fuel 0 (lane_length lane) step) 0 (lane_length lane) step = Ok ss ->
  sample_lane lane_bounds lane_length to_inertial step lane = oconcat (map (row step lane) ss).
Proof. intro E. unfold sample_lane. rewrite E. reflexivity. Qed.

Lemma sample_lane_spec step lane : 0 < step ->
  exists l, sample_lane lane_bounds lane_length to_inertial step lane = Ok l /\
    forall p, In p l -> snd p = lane /\ is_sample lane_bounds lane_length to_inertial step lane (fst p).
Proof.
  intro Hs.
  destruct (loop_full 0 (lane_length lane) step Hs) as (ss & Es & A & B).
  rewrite (sample_lane_row _ _ _ Es).
  destruct (oconcat_spec (row step lane) ss) as (r & R & I).
  { intros s _. unfold row. destruct (loop_full (fst (lane_bounds lane s)) (snd (lane_bounds lane s)) step Hs) as (rs & -> & _). eexists; reflexivity. }
  rewrite R. exists r. split; [reflexivity|]. intros p Hp. apply I in Hp. destruct Hp as (s & x & S1 & S2 & S3).
  unfold row in S2.
  destruct (loop_full (fst (lane_bounds lane s)) (snd (lane_bounds lane s)) step Hs) as (rs & E & C & D). rewrite E in S2.
  cbn [omap] in S2. inversion S2; subst x; clear S2. apply in_map_iff in S3. destruct S3 as (v & <- & V). simpl.
  split; [reflexivity|]. destruct (A s S1) as (A1 & A2 & n & A3). destruct (C v V) as (C1 & C2 & m & C3).
  exists s, v. repeat split; auto.
  - exists n. rewrite A3. unfold nQ. ring.
  - exists m. exact C3.
Qed.

Lemma sample_points_spec lanes step : 0 < step ->
  exists l, sample_points lane_bounds lane_length to_inertial lanes step = Ok l /\
    forall p, In p l -> In (snd p) lanes /\ is_sample lane_bounds lane_length to_inertial step (snd p) (fst p).
Proof.
  intro Hs. unfold sample_points.
  destruct (oconcat_spec (sample_lane lane_bounds lane_length to_inertial step) lanes) as (r & R & I).
  { intros a _. destruct (sample_lane_spec step a Hs) as (l & E & _). eauto. }
  exists r. split; [exact R|]. intros p Hp. apply I in Hp. destruct Hp as (a & x & X1 & X2 & X3).
  destruct (sample_lane_spec step a Hs) as (l & E & S). rewrite E in X2. inversion X2; subst x.
  destruct (S p X3) as [S1 S2]. rewrite S1. auto.
Qed.

(** every lane with non-negative length and non-empty bounds at s = 0 is sampled *)
Lemma sample_points_cover lanes step lane l : 0 < step -> In lane lanes -> 0 <= lane_length lane ->
  (forall s, s == 0 -> fst (lane_bounds lane s) <= snd (lane_bounds lane s)) ->
  sample_points lane_bounds lane_length to_inertial lanes step = Ok l ->
  exists p, In p l /\ snd p = lane.
Proof.
  intros Hs Il Hl Hb E. unfold sample_points in E.
  destruct (oconcat_spec (sample_lane lane_bounds lane_length to_inertial step) lanes) as (r & R & I).
  { intros a _. destruct (sample_lane_spec step a Hs) as (l' & E' & _). eauto. }
  rewrite E in R; inversion R; subst r; clear R.
  destruct (sample_lane_spec step lane Hs) as (l' & E' & S').
  assert (X : exists p, In p l').
  { destruct (loop_full 0 (lane_length lane) step Hs) as (ss & L & A & B). rewrite (sample_lane_row _ _ _ L) in E'.
    destruct (B 0%nat) as (s & Si & Se). { change (nQ 0) with 0. lra. }
    change (nQ 0) with 0 in Se. assert (Sz : s == 0) by lra.
    destruct (oconcat_spec (row step lane) ss) as (r & R & I').
    { intros s' _. unfold row. destruct (loop_full (fst (lane_bounds lane s')) (snd (lane_bounds lane s')) step Hs) as (rs & -> & _). eexists; reflexivity. }
    rewrite R in E'. inversion E'; subst r.
    destruct (loop_full (fst (lane_bounds lane s)) (snd (lane_bounds lane s)) step Hs) as (rs & LL & C & D).
    destruct (D 0%nat) as (v & Vi & _). { change (nQ 0) with 0. specialize (Hb s Sz). lra. }
    exists (to_inertial lane s v, lane). apply I'. exists s, (map (fun r => (to_inertial lane s r, lane)) rs).
    split; [exact Si|]. split; [unfold row; rewrite LL; reflexivity|]. apply in_map_iff. eauto. }
  destruct X as (p & Pp). exists p. split; [|apply S'; exact Pp].
  apply I. exists lane, l'. auto.
Qed.

Variable nth_element : nat -> nat -> list mpoint -> list mpoint.
Hypothesis Hnth : nth_element_ok mpoint mcoord nth_element.

Lemma cube_wf p h : (match h with Fin r => 0 <= r | PInf => True | NInf => False end) ->
  box_wf (mk_box (V3 (ext_sub (fst (fst p)) h) (ext_sub (snd (fst p)) h) (ext_sub (snd p) h))
                 (V3 (ext_add (fst (fst p)) h) (ext_add (snd (fst p)) h) (ext_add (snd p) h)) kTolerance).
Proof. intro H. unfold box_wf, kTolerance; simpl. destruct h; simpl in *; try tauto; repeat split; try lra; auto. Qed.

Lemma KDFind_spec lanes step p radius : 0 < step ->
  (match radius with Some r => 0 <= r | None => True end) ->
  forall pts, sample_points lane_bounds lane_length to_inertial lanes step = Ok pts -> pts <> [] ->
  exists t res, KDTreeStrategy lane_bounds lane_length to_inertial nth_element lanes step = Ok t /\
    KDFindRoadPositions to_lane t p radius = Ok res /\
    (forall x, In x res -> exists lane c, In lane lanes /\ x = to_lane lane /\ radius_ok radius (r_dist x) /\
         In (c, lane) pts /\ in_cube c p (match radius with Some r => Some (r + kTolerance) | None => None end)) /\
    (forall lane c, In (c, lane) pts -> in_cube c p radius -> radius_ok radius (r_dist (to_lane lane)) -> In (to_lane lane) res).
Proof.
  intros Hs Hr pts Ep Np. unfold KDTreeStrategy. rewrite Ep; cbn [obind].
  set (h := match radius with Some r => Fin r | None => PInf end).
  assert (Hh : match h with Fin r => 0 <= r | PInf => True | NInf => False end) by (unfold h; destruct radius; auto).
  pose proof (cube_wf p h Hh) as W.
  set (reg := mk_box _ _ _) in W.
  destruct (KDTree3D_range_search mpoint mcoord nth_element Hnth pts reg Np W) as (t & E & Pm & Sub & Con & _).
  destruct (KDTree3D_range_search_mem mpoint mcoord nth_element Hnth pts reg Np W) as (t' & E' & Mem).
  rewrite E in E'; inversion E'; subst t'; clear E'.
  exists t. unfold KDFindRoadPositions, ClosestLanes. fold h. destruct p as [[px py] pz]. cbn [fst snd] in *.
  rewrite (Box_ok _ _ _ W). cbn [obind]. fold reg.
  eexists. split; [exact E|]. split; [reflexivity|]. split.
  - intros x X. apply filter_In in X. destruct X as [X R]. apply in_radius_iff in R.
    apply in_map_iff in X. destruct X as (lane & <- & X). apply in_map_iff in X. destruct X as ((c & lane') & <- & X). simpl.
    assert (Ip : In (c, lane') pts). { eapply Permutation_in; [apply Permutation_sym; exact Pm|]. eapply subseq_in; eauto. }
    destruct (sample_points_spec lanes step Hs) as (l2 & E2 & S2). rewrite Ep in E2; inversion E2; subst l2.
    destruct (S2 _ Ip) as [S3 _]. simpl in S3.
    exists lane', c. split; [exact S3|]. split; [reflexivity|]. split; [exact R|]. split; [exact Ip|].
    specialize (Con _ X). unfold in_inflated, between, vshift, to_vec, reg, h in Con. simpl in Con.
    destruct c as [[cx cy] cz]. unfold mcoord in Con; simpl in Con.
    destruct radius as [r|]; simpl in *; [|auto]. lra.
  - intros lane c Ip Cu R. apply filter_In. split; [|apply in_radius_iff; exact R].
    apply in_map. change lane with (snd (c, lane)). apply in_map. apply Mem; [exact Ip|].
    unfold point_in, in_box, between, reg, h, mcoord; simpl. destruct c as [[cx cy] cz]; simpl in *.
    destruct radius as [r|]; simpl in *; [lra|tauto].
Qed.

Variable norm : Q * Q * Q -> Q * Q * Q -> Q.
Hypothesis Hnorm : forall a b, 0 <= norm a b.

Lemma erase_skeleton t : erase t = skeleton mpoint t.
Proof. induction t; simpl; congruence. Qed.

Lemma KDClosest_spec lanes step p tiny : 0 < step -> 0 < tiny ->
  forall pts, sample_points lane_bounds lane_length to_inertial lanes step = Ok pts -> pts <> [] ->
  exists t res n c0 lane0, KDTreeStrategy lane_bounds lane_length to_inertial nth_element lanes step = Ok t /\
    KDToRoadPosition lane_bounds to_lane norm t tiny step p None = Ok res /\
    (exists lane, In lane lanes /\ res = to_lane lane) /\
    (n <= length pts)%nat /\ In (c0, lane0) pts /\
    r_dist res <= r_dist (to_lane lane0) + nQ n * eps /\
    (forall lane c, In (c, lane) pts -> in_cube c p (Some (norm p c0 + 2 * step)) ->
        r_dist res <= r_dist (to_lane lane) + nQ n * eps).
Proof.
  intros Hs Ht pts Ep Np. unfold KDTreeStrategy. rewrite Ep; cbn [obind].
  destruct (KDTree3D_spec mpoint mcoord nth_element Hnth pts Np) as (t & E & Pm & Ord & Cov & Wf).
  assert (Nn : skeleton mpoint t <> Null).
  { intro Z. apply Np. apply Permutation_nil. apply Permutation_sym. rewrite <- skeleton_elements, Z in Pm. exact Pm. }
  assert (H3 : (0 < 3)%nat) by lia.
  destruct (nearest_point_spec mpoint mcoord 3 H3 _ (p, 0%nat) tiny Nn Ht Ord) as (mp & Enp & Imp & _).
  rewrite skeleton_elements in Imp.
  assert (Imp' : In mp pts) by (eapply Permutation_in; [apply Permutation_sym; exact Pm|exact Imp]).
  set (h := norm p (fst mp) + 2 * step).
  assert (Hh : 0 <= h). { unfold h. pose proof (Hnorm p (fst mp)). lra. }
  pose proof (cube_wf p (Fin h) Hh) as W. set (reg := mk_box _ _ _) in W.
  destruct (KDTree3D_range_search mpoint mcoord nth_element Hnth pts reg Np W) as (t1 & E1 & _ & Sub & Con & _).
  rewrite E in E1; inversion E1; subst t1; clear E1.
  destruct (KDTree3D_range_search_mem mpoint mcoord nth_element Hnth pts reg Np W) as (t' & E' & Mem).
  rewrite E in E'; inversion E'; subst t'; clear E'.
  destruct (sample_points_spec lanes step Hs) as (l2 & E2 & S2). rewrite Ep in E2; inversion E2; subst l2.
  destruct mp as [c0 lane0].
  set (found := map to_lane (map snd (RangeSearch mpoint mcoord reg t))).
  destruct (pick_spec lane_bounds found (to_lane lane0)) as (A & B & C).
  exists t, (pick lane_bounds (to_lane lane0) found), (length found), c0, lane0.
  split; [exact E|]. split; [|split; [|split; [|split; [exact Imp'|split; [exact B|]]]]].
  - unfold KDToRoadPosition, ClosestLane. rewrite erase_skeleton, Enp. cbn [obind fst snd].
    unfold ClosestLanes. destruct p as [[px py] pz]. cbn [fst snd] in *. fold h.
    rewrite (Box_ok _ _ _ W). cbn [obind]. reflexivity.
  - destruct A as [A|A].
    + rewrite A. exists lane0. split; [apply (S2 _ Imp')|reflexivity].
    + unfold found in A at 2. apply in_map_iff in A. destruct A as (lane & <- & A). apply in_map_iff in A. destruct A as ((c & lane') & <- & A).
      exists lane'. split; [|reflexivity]. apply (S2 (c, lane')). eapply Permutation_in; [apply Permutation_sym; exact Pm|]. eapply subseq_in; eauto.
  - unfold found. rewrite !map_length. rewrite (Permutation_length Pm). clear - Sub.
    induction Sub; simpl; lia.
  - intros lane c Ip Cu. apply C. unfold found. apply in_map. change lane with (snd (c, lane)). apply in_map. apply Mem; [exact Ip|].
    destruct p as [[px py] pz]. destruct c as [[cx cy] cz].
    unfold point_in, in_box, between, reg, h, mcoord in *; simpl in *. lra.
Qed.
End Kd.

(** ** KDTreeStrategy against the global minimum *)
Section Global.
Variable lane_bounds : nat -> Q -> Q * Q.
Variable to_lane : nat -> result.
Variable lane_length : nat -> Q.
Variable to_inertial : nat -> Q -> Q -> Q * Q * Q.
Variable nth_element : nat -> nat -> list mpoint -> list mpoint.
Hypothesis Hnth : nth_element_ok mpoint mcoord nth_element.
Variable norm : Q * Q * Q -> Q * Q * Q -> Q.
Hypothesis Hnorm : forall a b, 0 <= norm a b.
Hypothesis Hcube : forall p c h, norm p c <= h -> in_cube c p (Some h).

Lemma KDClosest_global lanes step p tiny : 0 < step -> 0 < tiny ->
  forall pts, sample_points lane_bounds lane_length to_inertial lanes step = Ok pts -> pts <> [] ->
  (forall c lane, In (c, lane) pts -> r_dist (to_lane lane) <= norm p c) ->
  (forall lane, In lane lanes -> exists c, In (c, lane) pts /\ norm p c <= r_dist (to_lane lane) + 2 * step) ->
  exists t res, KDTreeStrategy lane_bounds lane_length to_inertial nth_element lanes step = Ok t /\
    KDToRoadPosition lane_bounds to_lane norm t tiny step p None = Ok res /\
    (exists lane, In lane lanes /\ res = to_lane lane) /\
    forall lane, In lane lanes -> r_dist res <= r_dist (to_lane lane) + nQ (length pts) * eps.
Proof.
  intros Hs Ht pts Ep Np Hd Hdense.
  destruct (KDClosest_spec lane_bounds to_lane lane_length to_inertial nth_element Hnth norm Hnorm lanes step p tiny Hs Ht pts Ep Np)
    as (t & res & n & c0 & lane0 & E1 & E2 & L & Hn & I0 & B & C).
  exists t, res. split; [exact E1|]. split; [exact E2|]. split; [exact L|].
  intros lane Il.
  assert (K : nQ n * eps <= nQ (length pts) * eps).
  { assert (nQ n <= nQ (length pts)) by (unfold nQ; rewrite <- Zle_Qle; lia). pose proof eps_pos. nra. }
  destruct (Qlt_le_dec (norm p c0) (r_dist (to_lane lane))) as [F|F].
  - specialize (Hd _ _ I0). lra.
  - destruct (Hdense lane Il) as (c & Ic & Nc).
    specialize (C lane c Ic). assert (in_cube c p (Some (norm p c0 + 2 * step))) by (apply Hcube; lra).
    specialize (C H). lra.
Qed.
End Global.

Lemma within_iff lane_bounds x : within_bounds lane_bounds x = true <->
  fst (lane_bounds (r_lane x) (r_s x)) <= r_r x /\ r_r x < snd (lane_bounds (r_lane x) (r_s x)).
Proof. unfold within_bounds. rewrite andb_true_iff, Qleb_true, Qltb_true. tauto. Qed.

Lemma closer_tie_spec lane_bounds a b :
  - (1 # 1000000000000) <= r_dist a - r_dist b -> r_dist a - r_dist b < 1 # 1000000000000 ->
  let inside x := fst (lane_bounds (r_lane x) (r_s x)) <= r_r x /\ r_r x < snd (lane_bounds (r_lane x) (r_s x)) in
  (IsCloser lane_bounds a b = true <->
     (inside a /\ ~ inside b) \/ ((inside a <-> inside b) /\ Qabs (r_r a) < Qabs (r_r b))).
Proof.
  intros L U inside. unfold IsCloser, eps.
  destruct (Qltb_spec (r_dist a - r_dist b) (- (1 # 1000000000000))); [lra|].
  destruct (Qleb_spec (1 # 1000000000000) (r_dist a - r_dist b)); [lra|].
  pose proof (within_iff lane_bounds a) as A. pose proof (within_iff lane_bounds b) as B.
  fold (inside a) in A. fold (inside b) in B.
  destruct (within_bounds lane_bounds a), (within_bounds lane_bounds b); simpl; rewrite ?Qltb_true; intuition (try discriminate).
Qed.

Lemma closer_not_transitive : exists lane_bounds a b c,
  IsCloser lane_bounds a b = true /\ IsCloser lane_bounds b c = true /\ IsCloser lane_bounds a c = false.
Proof.
  exists (fun _ _ => (-5, 5)), (mk_result 0 0 1 (18 # 10000000000000)), (mk_result 0 0 2 (9 # 10000000000000)), (mk_result 0 0 3 0).
  vm_compute. auto.
Qed.

Lemma to_road_position_throw lane_bounds to_lane rg tol :
  ToRoadPosition lane_bounds to_lane rg tol None = Throw <-> lanes_of rg = [].
Proof.
  split; [|apply to_road_position_empty]. intro T.
  destruct (lanes_of rg) eqn:E; [reflexivity|].
  destruct (to_road_position_spec lane_bounds to_lane rg tol) as (x & X & _); [rewrite E; discriminate|congruence].
Qed.

Lemma to_road_position_drift : exists lane_bounds to_lane rg tol x,
  ToRoadPosition lane_bounds to_lane rg tol None = Ok x /\
  exists lane, In lane (lanes_of rg) /\ r_dist (to_lane lane) + (1 # 1000000000000) < r_dist x.
Proof.
  exists (fun _ _ => (-5, 5)),
    (fun k => match k with 0 => mk_result 0 0 3 0 | 1 => mk_result 1 0 2 (9 # 10000000000000) | _ => mk_result 2 0 1 (18 # 10000000000000) end%nat),
    [[[0; 1; 2]]]%nat, (1 # 10). eexists. split; [vm_compute; reflexivity|].
  exists 0%nat. split; [simpl; auto|]. vm_compute. reflexivity.
Qed.

Lemma KDFind_all lane_bounds to_lane lane_length to_inertial nth_element :
  nth_element_ok mpoint mcoord nth_element ->
  forall lanes step p, 0 < step -> lanes <> [] ->
  (forall lane, In lane lanes -> 0 <= lane_length lane /\
     forall s, s == 0 -> fst (lane_bounds lane s) <= snd (lane_bounds lane s)) ->
  exists t res, KDTreeStrategy lane_bounds lane_length to_inertial nth_element lanes step = Ok t /\
    KDFindRoadPositions to_lane t p None = Ok res /\
    forall x, In x res <-> exists lane, In lane lanes /\ x = to_lane lane.
Proof.
  intros Hn lanes step p Hs Nl Hl.
  destruct (sample_points_spec lane_bounds lane_length to_inertial lanes step Hs) as (pts & E & S).
  assert (C : forall lane, In lane lanes -> exists q, In q pts /\ snd q = lane).
  { intros lane I. destruct (Hl lane I). eapply sample_points_cover; eauto. }
  assert (Np : pts <> []).
  { destruct lanes as [|l0 ls]; [congruence|]. destruct (C l0) as (q & Q & _); [left; reflexivity|]. destruct pts; [destruct Q|discriminate]. }
  destruct (KDFind_spec lane_bounds to_lane lane_length to_inertial nth_element Hn lanes step p None Hs I pts E Np) as (t & res & E1 & E2 & A & B).
  exists t, res. split; [exact E1|]. split; [exact E2|]. intro x. split.
  - intro X. destruct (A x X) as (lane & c & L & X' & _). eauto.
  - intros (lane & L & ->). destruct (C lane L) as ((c & l') & Q & Z). simpl in Z; subst l'. apply (B lane c Q); [|exact I].
    destruct c as [[? ?] ?], p as [[? ?] ?]. exact I.
Qed.

Definition ex_inertial (lane : nat) (s r : Q) : Q * Q * Q := (s, r + 2 * inject_Z (Z.of_nat lane), 0).
Definition ex_norm (a b : Q * Q * Q) : Q :=
  let '(x, y, z) := a in let '(x', y', z') := b in
  cmax (cmax (Qabs (x - x')) (Qabs (y - y'))) (Qabs (z - z')).
Definition ex_to_lane (k : nat) : result := match k with O => mk_result 0 5 (1#2) 0 | S _ => mk_result k 5 (-1) (1#2) end.

Lemma KDClosest_example : nth_element_ok mpoint mcoord (isort mpoint mcoord) /\
  (forall a b, 0 <= ex_norm a b) /\ (forall p c h, ex_norm p c <= h -> in_cube c p (Some h)) /\
  exists t, KDTreeStrategy (fun _ _ => (-1, 1)) (fun _ => 10) ex_inertial (isort mpoint mcoord) [0; 1]%nat 1 = Ok t /\
  KDToRoadPosition (fun _ _ => (-1, 1)) ex_to_lane ex_norm t (1#1000) 1 (5, 1#2, 0) None = Ok (ex_to_lane 0).
Proof.
  split; [apply isort_ok|]. split; [|split].
  - intros [[x y] z] [[x' y'] z']. simpl. pose proof (Qabs_nonneg (z - z')).
    pose proof (cmax_r (cmax (Qabs (x - x')) (Qabs (y - y'))) (Qabs (z - z'))). lra.
  - intros [[x y] z] [[x' y'] z'] h. simpl.
    pose proof (cmax_r (cmax (Qabs (x - x')) (Qabs (y - y'))) (Qabs (z - z'))).
    pose proof (cmax_l (cmax (Qabs (x - x')) (Qabs (y - y'))) (Qabs (z - z'))).
    pose proof (cmax_r (Qabs (x - x')) (Qabs (y - y'))). pose proof (cmax_l (Qabs (x - x')) (Qabs (y - y'))).
    intro L. pose proof (Qabs_Qle_condition (x - x') h) as X. pose proof (Qabs_Qle_condition (y - y') h) as Y. pose proof (Qabs_Qle_condition (z - z') h) as Z.
    destruct X as [X _]; destruct Y as [Y _]; destruct Z as [Z _].
    assert (X' := X ltac:(lra)). assert (Y' := Y ltac:(lra)). assert (Z' := Z ltac:(lra)). lra.
  - destruct (KDTreeStrategy (fun _ _ => (-1, 1)) (fun _ => 10) ex_inertial (isort mpoint mcoord) [0; 1]%nat 1) as [t| |] eqn:E;
      [|vm_compute in E; discriminate|vm_compute in E; discriminate].
    exists t. split; [reflexivity|].
    assert (S : KDToRoadPosition (fun _ _ => (-1, 1)) ex_to_lane ex_norm t (1#1000) 1 (5, 1#2, 0) None =
      obind (KDTreeStrategy (fun _ _ => (-1, 1)) (fun _ => 10) ex_inertial (isort mpoint mcoord) [0; 1]%nat 1)
       (fun t => KDToRoadPosition (fun _ _ => (-1, 1)) ex_to_lane ex_norm t (1#1000) 1 (5, 1#2, 0) None)) by (rewrite E; reflexivity).
    rewrite S. vm_compute. reflexivity.
Qed.

(** one lane of length 10; query at (1/2, 1, 0), on the lane, radius 1/4, step 1: no grid point in the cube *)
Lemma KDFind_misses :
  exists lane_bounds to_lane lane_length to_inertial lanes step p radius t res lane,
    0 < step /\ 0 <= radius /\
    KDTreeStrategy lane_bounds lane_length to_inertial (isort mpoint mcoord) lanes step = Ok t /\
    KDFindRoadPositions to_lane t p (Some radius) = Ok res /\
    In lane lanes /\ r_dist (to_lane lane) <= radius /\ ~ In (to_lane lane) res.
Proof.
  exists (fun _ _ => (-1, 1)), (fun _ => mk_result 0 (1#2) 1 0), (fun _ => 10), ex_inertial, [0%nat], 1, (1#2, 1, 0), (1#4).
  destruct (KDTreeStrategy (fun _ _ => (-1, 1)) (fun _ => 10) ex_inertial (isort mpoint mcoord) [0%nat] 1) as [t| |] eqn:E;
    [|vm_compute in E; discriminate|vm_compute in E; discriminate].
  exists t.
  assert (S : KDFindRoadPositions (fun _ => mk_result 0 (1#2) 1 0) t (1#2, 1, 0) (Some (1#4)) =
    obind (KDTreeStrategy (fun _ _ => (-1, 1)) (fun _ => 10) ex_inertial (isort mpoint mcoord) [0%nat] 1)
      (fun t => KDFindRoadPositions (fun _ => mk_result 0 (1#2) 1 0) t (1#2, 1, 0) (Some (1#4)))) by (rewrite E; reflexivity).
  exists [], 0%nat. split; [lra|]. split; [lra|]. split; [reflexivity|]. split; [rewrite S; vm_compute; reflexivity|].
  split; [left; reflexivity|]. split; [simpl; lra|]. simpl; tauto.
Qed.

Lemma KDFind_duplicates :
  exists lane_bounds to_lane lane_length to_inertial lanes step p t res,
    NoDup lanes /\ (forall k, r_lane (to_lane k) = k) /\ 0 < step /\
    KDTreeStrategy lane_bounds lane_length to_inertial (isort mpoint mcoord) lanes step = Ok t /\
    KDFindRoadPositions to_lane t p None = Ok res /\ ~ NoDup (map r_lane res).
Proof.
  exists (fun _ _ => (0, 0)), (fun k => mk_result k 0 0 0), (fun _ => 1), ex_inertial, [0%nat], 1, (0, 0, 0).
  destruct (KDTreeStrategy (fun _ _ => (0, 0)) (fun _ => 1) ex_inertial (isort mpoint mcoord) [0%nat] 1) as [t| |] eqn:E;
    [|vm_compute in E; discriminate|vm_compute in E; discriminate].
  exists t.
  assert (S : KDFindRoadPositions (fun k => mk_result k 0 0 0) t (0, 0, 0) None =
    obind (KDTreeStrategy (fun _ _ => (0, 0)) (fun _ => 1) ex_inertial (isort mpoint mcoord) [0%nat] 1)
      (fun t => KDFindRoadPositions (fun k => mk_result k 0 0 0) t (0, 0, 0) None)) by (rewrite E; reflexivity).
  exists [mk_result 0 0 0 0; mk_result 0 0 0 0].
  split; [repeat constructor; simpl; tauto|]. split; [reflexivity|]. split; [lra|]. split; [reflexivity|].
  split; [rewrite S; vm_compute; reflexivity|]. simpl. intro N; inversion N; subst. apply H1. left; reflexivity.
Qed.
