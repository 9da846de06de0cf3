(** C40, C41, C42: relations between ranges of a route, lane routes and connectivity,
    closest positions. *)
From Coq Require Import List Arith Bool QArith Qabs Lia Lqa.
From Verif Require Import Base Regions_Model Positions_Model Positions_Proofs Graph_Spec Route_Model Route_Spec Route_Proofs.
Import ListNotations.
Local Open Scope nat_scope.

(** ** C40 *)
Definition on_some_range (net : network) (r : list phase) (q : lsrange) : Prop :=
  exists p i x, range_at r p i x /\ covers (tolerance net) x q.

(** Every pair of ranges is classified, and as unknown exactly when one of them is not
    part of the route. *)
Theorem relation_unknown_iff_off_route net r a b : (0 <= tolerance net)%Q -> ranges_ok r -> range_ok a -> range_ok b ->
  exists k, ComputeLaneSRangeRelation net r a b = Ok k /\ (k = kUnknown <-> ~ on_some_range net r a \/ ~ on_some_range net r b).
Proof.
  intros T R A B.
  assert (D : forall q, range_ok q -> (FindLaneSRangeIndex net r q = None <-> ~ on_some_range net r q)).
  { intros q Q. rewrite (lookup_none net r T R q Q). unfold on_some_range. split.
    - intros H (p & i & x & X & C). apply (H p i x X C).
    - intros H p i x X C. apply H. eauto. }
  destruct (FindLaneSRangeIndex net r a) as [[pa ia]|] eqn:Ea; [|exists kUnknown; split; [apply relation_unknown; auto|]; split; auto; intros _; left; apply D; auto].
  destruct (FindLaneSRangeIndex net r b) as [[pb ib]|] eqn:Eb; [|exists kUnknown; split; [apply relation_unknown; auto|]; split; auto; intros _; right; apply D; auto].
  destruct (relation_found net r a b pa ia pb ib Ea Eb) as (x & y & _ & _ & E). eexists. split; [exact E|]. split.
  - destruct (Nat.ltb (pb + 1) pa || Nat.ltb (pa + 1) pb); [discriminate|]. destruct (Nat.eqb pa pb).
    + unfold same_phase_rel. repeat match goal with |- context [if ?c then _ else _] => destruct c end; discriminate.
    + destruct (Nat.eqb (pa + 1) pb); destruct (ComputeRelativePosition _ _ _); discriminate.
  - intros [H|H]; apply D in H; auto; congruence.
Qed.
Print Assumptions relation_unknown_iff_off_route.

(** On the route the relation is decided by the positions of the two ranges: phases more
    than one apart are unrelated, in one phase the position to the left counts, and
    consecutive phases are straight when the ranges touch. *)
Definition related_as (net : network) (r : list phase) (i j : nat * nat) (k : relation) : Prop :=
  (k = kUnrelated <-> fst i + 1 < fst j \/ fst j + 1 < fst i) /\
  (k = kCoincident <-> i = j) /\
  (k = kAdjacentLeft <-> fst i = fst j /\ snd j = snd i + 1) /\
  (k = kAdjacentRight <-> fst i = fst j /\ snd i = snd j + 1) /\
  (k = kLeft <-> fst i = fst j /\ snd i + 1 < snd j) /\
  (k = kRight <-> fst i = fst j /\ snd j + 1 < snd i) /\
  (succeeding k <-> fst j = fst i + 1) /\
  (preceding k <-> fst i = fst j + 1) /\
  (forall x y, range_at r (fst i) (snd i) x -> range_at r (fst j) (snd j) y ->
     (k = kSucceedingStraight <-> fst j = fst i + 1 /\ touch net x y) /\
     (k = kPrecedingStraight <-> fst i = fst j + 1 /\ touch net y x)).

Ltac leaf := repeat match goal with
    | |- _ /\ _ => split | |- _ <-> _ => split | |- forall _, _ => intro
    | H : _ \/ _ |- _ => destruct H | H : _ /\ _ |- _ => destruct H | H : (_, _) = (_, _) |- _ => inversion H; clear H; subst end;
    try discriminate; try lia; auto.
Theorem relation_follows_indices net r a b i j : (0 <= tolerance net)%Q -> ranges_ok r -> range_ok a -> range_ok b ->
  resolves net r a i -> resolves net r b j ->
  exists k, ComputeLaneSRangeRelation net r a b = Ok k /\ related_as net r i j k.
Proof.
  intros T R A B I J. apply (lookup_some net r T R a i A) in I. apply (lookup_some net r T R b j B) in J.
  destruct i as [pa ia], j as [pb ib]. destruct (relation_found net r a b pa ia pb ib I J) as (x & y & X & Y & E).
  eexists. split; [exact E|]. clear E. unfold related_as, succeeding, preceding. cbn [fst snd].
  assert (U : forall x' y', range_at r pa ia x' -> range_at r pb ib y' -> x' = x /\ y' = y).
  { intros x' y' X' Y'. split; [apply (range_at_fun r pa ia); auto|apply (range_at_fun r pb ib); auto]. }
  assert (St : forall x' y', range_at r pa ia x' -> range_at r pb ib y' ->
      (ComputeRelativePosition net (range_end x) (range_start y) = RCenter <-> touch net x' y') /\
      (ComputeRelativePosition net (range_start x) (range_end y) = RCenter <-> touch net y' x')).
  { intros x' y' X' Y'. destruct (U x' y' X' Y') as [-> ->]. split; [apply touch_iff|]. rewrite center_sym. apply touch_iff. }
  clear U X Y I J.
  destruct (Nat.ltb_spec (pb + 1) pa) as [L1|L1]; cbn [orb]; [leaf|].
  destruct (Nat.ltb_spec (pa + 1) pb) as [L2|L2]; [leaf|].
  destruct (Nat.eqb_spec pa pb) as [->|N].
  { unfold same_phase_rel. destruct (Nat.eqb_spec ia ib) as [->|Ni]; [leaf|]. destruct (Nat.eqb_spec ia (ib + 1)); [leaf|].
    destruct (Nat.ltb_spec (ib + 1) ia); [leaf|]. destruct (Nat.eqb_spec (ia + 1) ib); leaf. }
  destruct (Nat.eqb_spec (pa + 1) pb) as [Ep|Np].
  { destruct (ComputeRelativePosition net (range_end x) (range_start y)) eqn:C; leaf;
      match goal with X' : range_at r pa ia ?x', Y' : range_at r pb ib ?y' |- _ => destruct (St x' y' X' Y') as [[S1 S2] [S3 S4]] end; auto;
      try discriminate; try (exfalso; assert (HH := S2 ltac:(assumption)); congruence). }
  { destruct (ComputeRelativePosition net (range_start x) (range_end y)) eqn:C; leaf;
      match goal with X' : range_at r pa ia ?x', Y' : range_at r pb ib ?y' |- _ => destruct (St x' y' X' Y') as [[S1 S2] [S3 S4]] end; auto;
      try discriminate; try (exfalso; assert (HH := S4 ltac:(assumption)); congruence). }
Qed.
Print Assumptions relation_follows_indices.

(** The relation of (b, a) against that of (a, b). *)
Theorem relation_mirrored net r a b k k' :
  ComputeLaneSRangeRelation net r a b = Ok k -> ComputeLaneSRangeRelation net r b a = Ok k' ->
  (~ succeeding k /\ ~ preceding k -> k' = mirrored k) /\
  (succeeding k <-> preceding k') /\ (preceding k <-> succeeding k') /\
  (k = kSucceedingStraight <-> k' = kPrecedingStraight) /\ (k = kPrecedingStraight <-> k' = kSucceedingStraight).
Proof.
  intros Ek Ek'. unfold succeeding, preceding.
  destruct (FindLaneSRangeIndex net r a) as [[pa ia]|] eqn:Ea; [|
    rewrite relation_unknown in Ek by auto; rewrite relation_unknown in Ek' by auto; inversion Ek; inversion Ek'; subst; leaf].
  destruct (FindLaneSRangeIndex net r b) as [[pb ib]|] eqn:Eb; [|
    rewrite relation_unknown in Ek by auto; rewrite relation_unknown in Ek' by auto; inversion Ek; inversion Ek'; subst; leaf].
  destruct (relation_found net r a b pa ia pb ib Ea Eb) as (x & y & X & Y & E). rewrite E in Ek. clear E.
  destruct (relation_found net r b a pb ib pa ia Eb Ea) as (y' & x' & Y' & X' & E). rewrite E in Ek'. clear E.
  rewrite (range_at_fun r _ _ _ _ X' X), (range_at_fun r _ _ _ _ Y' Y) in Ek'.
  destruct (Nat.ltb_spec (pb + 1) pa) as [L1|L1]; destruct (Nat.ltb_spec (pa + 1) pb) as [L2|L2]; cbn [orb] in Ek, Ek'; try lia;
    try (inversion Ek; inversion Ek'; subst; leaf; fail).
  destruct (Nat.eqb_spec pa pb) as [->|N].
  { rewrite Nat.eqb_refl in Ek'. unfold same_phase_rel in Ek, Ek'.
    destruct (Nat.eqb_spec ia ib); destruct (Nat.eqb_spec ib ia); try lia; [inversion Ek; inversion Ek'; subst; leaf|].
    destruct (Nat.eqb_spec ia (ib + 1)); destruct (Nat.eqb_spec (ib + 1) ia); destruct (Nat.eqb_spec (ia + 1) ib); destruct (Nat.eqb_spec ib (ia + 1));
      destruct (Nat.ltb_spec (ib + 1) ia); destruct (Nat.ltb_spec (ia + 1) ib); try lia; inversion Ek; inversion Ek'; subst; leaf. }
  destruct (Nat.eqb_spec pb pa) as [|N']; [lia|].
  destruct (Nat.eqb_spec (pa + 1) pb) as [E1|E1]; destruct (Nat.eqb_spec (pb + 1) pa) as [E2|E2]; try lia.
  - pose proof (center_sym net (range_end x) (range_start y)) as C.
    destruct (ComputeRelativePosition net (range_end x) (range_start y)); destruct (ComputeRelativePosition net (range_start y) (range_end x));
      destruct C as [C1 C2]; try (discriminate (C1 eq_refl)); try (discriminate (C2 eq_refl)); inversion Ek; inversion Ek'; subst; split; [tauto|..]; leaf; tauto.
  - pose proof (center_sym net (range_start x) (range_end y)) as C.
    destruct (ComputeRelativePosition net (range_start x) (range_end y)); destruct (ComputeRelativePosition net (range_end y) (range_start x));
      destruct C as [C1 C2]; try (discriminate (C1 eq_refl)); try (discriminate (C2 eq_refl)); inversion Ek; inversion Ek'; subst; split; [tauto|..]; leaf; tauto.
Qed.
Print Assumptions relation_mirrored.

(** Where the two lanes have the same frame and the gap is not dead ahead, left and right
    are mirrored between phases too. *)
Definition sideways_gap (net : network) (x y : lsrange) : Q :=
  let u := inertial net (lane_id x) (mk_lpos (s1 (s_range x)) 0 0) in
  let v := inertial net (lane_id y) (mk_lpos (s0 (s_range y)) 0 0) in
  let t := s_hat net (lane_id x) (mk_lpos (s1 (s_range x)) 0 0) in
  let n := h_hat net (lane_id x) (mk_lpos (s1 (s_range x)) 0 0) in
  ((vy t * (vz v - vz u) - vz t * (vy v - vy u)) * vx n + (vz t * (vx v - vx u) - vx t * (vz v - vz u)) * vy n +
   (vx t * (vy v - vy u) - vy t * (vx v - vx u)) * vz n)%Q.
Theorem relation_mirrored_between_phases net r a b i j x y k k' : (0 <= tolerance net)%Q -> ranges_ok r -> range_ok a -> range_ok b ->
  resolves net r a i -> resolves net r b j -> range_at r (fst i) (snd i) x -> range_at r (fst j) (snd j) y -> fst j = fst i + 1 ->
  s_hat net (lane_id x) (mk_lpos (s1 (s_range x)) 0 0) = s_hat net (lane_id y) (mk_lpos (s0 (s_range y)) 0 0) ->
  h_hat net (lane_id x) (mk_lpos (s1 (s_range x)) 0 0) = h_hat net (lane_id y) (mk_lpos (s0 (s_range y)) 0 0) ->
  ~ (sideways_gap net x y == 0)%Q ->
  ComputeLaneSRangeRelation net r a b = Ok k -> ComputeLaneSRangeRelation net r b a = Ok k' -> k' = mirrored k /\
    (k = kSucceedingLeft <-> ~ touch net x y /\ (0 < sideways_gap net x y)%Q).
Proof.
  intros T R A B I J X Y P Es Eh G Ek Ek'. apply (lookup_some net r T R a i A) in I. apply (lookup_some net r T R b j B) in J.
  destruct i as [pa ia], j as [pb ib]. cbn [fst snd] in *.
  destruct (relation_found net r a b pa ia pb ib I J) as (x1 & y1 & X1 & Y1 & E). rewrite E in Ek. clear E.
  destruct (relation_found net r b a pb ib pa ia J I) as (y2 & x2 & Y2 & X2 & E). rewrite E in Ek'. clear E.
  rewrite (range_at_fun r _ _ _ _ X1 X), (range_at_fun r _ _ _ _ Y1 Y) in Ek. rewrite (range_at_fun r _ _ _ _ X2 X), (range_at_fun r _ _ _ _ Y2 Y) in Ek'.
  clear X1 Y1 X2 Y2. subst pb. destruct (Nat.ltb_spec (pa + 1 + 1) pa); [lia|]. destruct (Nat.ltb_spec (pa + 1) (pa + 1)); [lia|]. cbn [orb] in Ek, Ek'.
  destruct (Nat.eqb_spec pa (pa + 1)); [lia|]. destruct (Nat.eqb_spec (pa + 1) pa); [lia|]. rewrite Nat.eqb_refl in Ek.
  destruct (Nat.eqb_spec (pa + 1 + 1) pa); [lia|]. pose proof (touch_iff net x y) as Tc.
  unfold ComputeRelativePosition, range_end, range_start in *. cbn [at_lane at_pos] in *. rewrite <- Es, <- Eh in Ek'. unfold sideways_gap in *. cbn zeta in *.
  set (u := inertial net (lane_id x) _) in *. set (v := inertial net (lane_id y) _) in *. set (t := s_hat net (lane_id x) _) in *. set (h := h_hat net (lane_id x) _) in *.
  assert (D : (dot (vsub u v) (vsub u v) == dot (vsub v u) (vsub v u))%Q) by (unfold dot, vsub; cbn [vx vy vz]; ring).
  assert (Cr : (dot (cross t (vsub u v)) h == - dot (cross t (vsub v u)) h)%Q) by (unfold dot, cross, vsub; cbn [vx vy vz]; ring).
  assert (Gp : (dot (cross t (vsub v u)) h == (vy t * (vz v - vz u) - vz t * (vy v - vy u)) * vx h + (vz t * (vx v - vx u) - vx t * (vz v - vz u)) * vy h +
     (vx t * (vy v - vy u) - vy t * (vx v - vx u)) * vz h)%Q) by (unfold dot, cross, vsub; cbn [vx vy vz]; ring).
  rewrite <- Gp in G |- *. clear Gp.
  repeat match goal with H : context [Qleb ?m ?o] |- _ => destruct (Qleb_spec m o) | H : context [Qltb ?m ?o] |- _ => destruct (Qltb_spec m o) end;
    try lra; try (exfalso; apply G; lra); inversion Ek; inversion Ek'; subst; (split; [reflexivity|]); split; intro Hk; try discriminate.
  - exfalso. destruct Hk as [Hk _]. apply Hk. apply Tc. reflexivity.
  - split; auto. intro H'. apply Tc in H'. discriminate.
  - reflexivity.
  - exfalso. destruct Hk as [_ Hk]. lra.
Qed.
Print Assumptions relation_mirrored_between_phases.

(** *** A small network: three parallel lanes 1, 2, 3 (from right to left), the first two
    continued by 11 and 12.  All run along x, 4 apart, length 10. *)
Definition lane_x (l : nat) : Q := if Nat.ltb l 10 then 0 else 10.
Definition lane_y (l : nat) : Q := inject_Z (4 * Z.of_nat (Nat.modulo l 10)).
Definition clip (lo hi v : Q) : Q := cmin hi (cmax lo v).
Definition apart (u v : vec) : Q := (Qabs (vx u - vx v) + Qabs (vy u - vy v) + Qabs (vz u - vz v))%Q.
Definition place (l : nat) (p : lpos) : vec := mk_vec (lane_x l + ps p) (lane_y l + pr p) (ph p).
Definition demo : network := mk_net
  (fun l => if existsb (Nat.eqb l) [1; 2; 3; 11; 12] then Some 10%Q else None)
  (fun l => match l with 1 => Some 2 | 2 => Some 3 | 11 => Some 12 | _ => None end)
  (fun l => match l with 2 => Some 1 | 3 => Some 2 | 12 => Some 11 | _ => None end)
  (fun l e => match l, e with 1, true => [(11, false)] | 2, true => [(12, false)] | 11, false => [(1, true)] | 12, false => [(2, true)] | _, _ => [] end)
  place (fun _ _ => mk_vec 1 0 0) (fun _ _ => mk_vec 0 0 1)
  (fun l v => let p := mk_lpos (clip 0 10 (vx v - lane_x l)) (clip (-(2)) 2 (vy v - lane_y l)) (vz v) in (p, place l p, apart (place l p) v))
  apart (fun _ _ => ((-(2))%Q, 2%Q)) (1 # 1000).
Definition rng (l : nat) (a b : Q) : lsrange := mk_lsrange l (mk_srange a b).
Definition pos (l : nat) (s : Q) : rpos := mk_rpos l (mk_lpos s 0 0).
Definition demo_route : list phase :=
  [mk_phase (1 # 1000) [pos 3 0] [pos 1 10; pos 2 10] [rng 1 0 10; rng 2 0 10; rng 3 0 10];
   mk_phase (1 # 1000) [pos 11 0; pos 12 0] [pos 11 10] [rng 11 0 10; rng 12 0 10]].

Ltac ranges_in H := destruct H as (? & H1 & H2);
  repeat match goal with H' : nth_error _ ?p = Some _ |- _ => is_var p; destruct p; cbn in H'; try discriminate end;
  repeat match goal with H' : Some _ = Some _ |- _ => inversion H'; clear H'; subst end;
  cbn [ph_ranges] in *;
  repeat match goal with H' : nth_error _ ?p = Some _ |- _ => is_var p; destruct p; cbn in H'; try discriminate end;
  repeat match goal with H' : Some _ = Some _ |- _ => inversion H'; clear H'; subst end.
Lemma demo_ranges_ok : ranges_ok demo_route.
Proof. intros p i x H. ranges_in H; split; vm_compute; discriminate. Qed.
Lemma demo_tol : (0 <= tolerance demo)%Q.
Proof. vm_compute. discriminate. Qed.
Lemma demo_resolves q i : range_ok q -> FindLaneSRangeIndex demo demo_route q = Some i -> resolves demo demo_route q i.
Proof. intros Q E. apply (lookup_some demo demo_route demo_tol demo_ranges_ok); auto. Qed.
Lemma demo_distinct : ranges_distinct demo demo_route.
Proof.
  intros p i x H. pose proof (demo_ranges_ok p i x H) as O. apply demo_resolves; auto. clear O. ranges_in H; reflexivity.
Qed.
Ltac rok := split; vm_compute; discriminate.

Example relation_unknown_example :
  ranges_ok demo_route /\ range_ok (rng 1 2 3) /\ range_ok (rng 12 0 11) /\
  ComputeLaneSRangeRelation demo demo_route (rng 1 2 3) (rng 12 0 11) = Ok kUnknown /\
  ComputeLaneSRangeRelation demo demo_route (rng 1 2 3) (rng 12 0 10) = Ok kSucceedingLeft.
Proof. split; [apply demo_ranges_ok|]. split; [rok|]. split; [rok|]. split; reflexivity. Qed.
Example relation_follows_indices_example :
  resolves demo demo_route (rng 1 2 3) (0, 0) /\ resolves demo demo_route (rng 3 0 10) (0, 2) /\
  ComputeLaneSRangeRelation demo demo_route (rng 1 2 3) (rng 3 0 10) = Ok kLeft /\
  ComputeLaneSRangeRelation demo demo_route (rng 3 0 10) (rng 1 2 3) = Ok kRight /\
  ComputeLaneSRangeRelation demo demo_route (rng 1 2 3) (rng 11 0 1) = Ok kSucceedingStraight /\
  ComputeLaneSRangeRelation demo demo_route (rng 11 0 1) (rng 1 2 3) = Ok kPrecedingStraight.
Proof. split; [apply demo_resolves; [rok|reflexivity]|]. split; [apply demo_resolves; [rok|reflexivity]|]. repeat split; reflexivity. Qed.
Example relation_mirrored_between_phases_example :
  resolves demo demo_route (rng 1 2 3) (0, 0) /\ resolves demo demo_route (rng 12 0 1) (1, 1) /\
  ~ (sideways_gap demo (rng 1 0 10) (rng 12 0 10) == 0)%Q /\
  ComputeLaneSRangeRelation demo demo_route (rng 1 2 3) (rng 12 0 1) = Ok kSucceedingLeft /\
  ComputeLaneSRangeRelation demo demo_route (rng 12 0 1) (rng 1 2 3) = Ok kPrecedingRight.
Proof.
  split; [apply demo_resolves; [rok|reflexivity]|]. split; [apply demo_resolves; [rok|reflexivity]|]. split; [vm_compute; discriminate|]. split; reflexivity.
Qed.

(** Finding: a gap dead ahead is reported as right from both sides. *)
Definition gap_route : list phase :=
  [mk_phase (1 # 1000) [pos 1 0] [pos 1 5] [rng 1 0 5]; mk_phase (1 # 1000) [pos 11 0] [pos 11 10] [rng 11 0 10]].
Theorem relation_mirror_refuted :
  exists net r a b k k', (forall p, In p r -> Phase net (ph_tol p) (ph_starts p) (ph_ends p) (ph_ranges p) = Ok p) /\
    ComputeLaneSRangeRelation net r a b = Ok k /\ ComputeLaneSRangeRelation net r b a = Ok k' /\ k' <> mirrored k.
Proof.
  exists demo, gap_route, (rng 1 0 5), (rng 11 0 10), kSucceedingRight, kPrecedingRight.
  split; [intros p [<-|[<-|[]]]; reflexivity|]. repeat split; try reflexivity. discriminate.
Qed.
Print Assumptions relation_mirror_refuted.

(** Finding: coincident does not mean equal: a part of a range is coincident with it. *)
Theorem coincident_equal_refuted :
  exists net r a b, ComputeLaneSRangeRelation net r a b = Ok kCoincident /\ s_range a <> s_range b.
Proof. exists demo, demo_route, (rng 1 0 10), (rng 1 2 3). split; [reflexivity|discriminate]. Qed.
Print Assumptions coincident_equal_refuted.

(** ** C41 *)
(** What the Phase constructor guarantees. *)
Theorem phase_constructor_guarantees net tol starts ends ranges p :
  (forall x, In x ranges -> range_ok x) -> (forall q, In q (starts ++ ends) -> 0 <= ps (at_pos q))%Q -> (forall l n, len net l = Some n -> 0 <= n)%Q ->
  Phase net tol starts ends ranges = Ok p ->
  (0 <= tol)%Q /\ starts <> [] /\ ends <> [] /\ ranges <> [] /\
  (forall x, In x ranges -> exists n, len net (lane_id x) = Some n /\ covers tol (mk_lsrange (lane_id x) (mk_srange 0 n)) x) /\
  (forall q, In q (starts ++ ends) -> exists x, In x ranges /\ covers tol x (point_range q)) /\
  (forall i x y, nth_error ranges i = Some x -> nth_error ranges (S i) = Some y ->
     (to_left net (lane_id x) = Some (lane_id y) /\ to_right net (lane_id y) = Some (lane_id x)) \/
     (to_left net (lane_id y) = Some (lane_id x) /\ to_right net (lane_id x) = Some (lane_id y))).
Proof.
  intros R P Ln E. unfold Phase, throw_unless in E.
  destruct (Qleb_spec 0 tol) as [T|]; [|discriminate].
  destruct starts as [|s ss]; [discriminate|]. destruct ends as [|e es]; [discriminate|]. destruct ranges as [|x0 xs]; [discriminate|]. cbn [nonempty] in E.
  destruct (all_ok (range_in_network net tol) (x0 :: xs)) as [[|]| |] eqn:A; try discriminate.
  destruct (all_ok (fun p => ValidatePosition p (x0 :: xs) tol) (s :: ss)) as [[|]| |] eqn:B; try discriminate.
  destruct (all_ok (fun p => ValidatePosition p (x0 :: xs) tol) (e :: es)) as [[|]| |] eqn:C; try discriminate.
  cbn [obind] in E. destruct (all_adjacent net (x0 :: xs)) eqn:D; [|discriminate].
  pose proof (proj1 (all_ok_true _ _) A) as A'. pose proof (proj1 (all_ok_true _ _) B) as B'. pose proof (proj1 (all_ok_true _ _) C) as C'. clear A B C. rename A' into A, B' into B, C' into C. split; auto. split; [discriminate|]. split; [discriminate|]. split; [discriminate|]. split; [|split].
  - intros x I. specialize (A x I). unfold range_in_network in A. destruct (len net (lane_id x)) as [n|] eqn:Ex; [|discriminate]. exists n. split; auto.
    apply contains_covers; auto; [split; cbn; [lra|apply (Ln _ _ Ex)]|].
    unfold contains, LContains. cbn [lane_id]. rewrite Nat.eqb_refl. unfold SRange in A. specialize (Ln _ _ Ex).
    destruct (Qleb_spec 0 0); [|lra]. destruct (Qleb_spec 0 n); [|lra]. cbn in A. cbn [s_range]. rewrite A. reflexivity.
  - intros q I. assert (V : ValidatePosition q (x0 :: xs) tol = Ok true) by (apply in_app_or in I; destruct I; auto).
    destruct (validate_spec q (x0 :: xs) tol T R (P q I)) as (b & Eb & Sb). rewrite Eb in V. inversion V; subst. apply Sb; auto.
  - intros i x y X Y. pose proof (all_adjacent_spec net _ D i x y X Y) as H. unfold ranges_adjacent in H.
    assert (O : forall o l, opt_is o l = true -> o = Some l) by (intros [z|] l H'; [apply Nat.eqb_eq in H'; subst; auto|discriminate]).
    apply orb_true_iff in H. rewrite !andb_true_iff in H. destruct H as [[H1 H2]|[H1 H2]]; [left|right]; auto.
Qed.
Print Assumptions phase_constructor_guarantees.
Example phase_constructor_example :
  Phase demo (1 # 1000) [pos 3 0] [pos 1 10; pos 2 10] [rng 1 0 10; rng 2 0 10; rng 3 0 10] =
    Ok (mk_phase (1 # 1000) [pos 3 0] [pos 1 10; pos 2 10] [rng 1 0 10; rng 2 0 10; rng 3 0 10]) /\
  Phase demo (1 # 1000) [pos 3 0] [pos 1 10] [rng 1 0 10; rng 3 0 10] = Throw /\
  Phase demo (1 # 1000) [pos 3 0] [pos 1 11] [rng 1 0 10; rng 2 0 10; rng 3 0 10] = Throw.
Proof. repeat split; reflexivity. Qed.

(** Finding: the ranges are documented as sorted from right to left; any order of
    neighbours is accepted, and the relations are then mirrored. *)
Theorem phase_right_to_left_refuted :
  exists net p x y, Phase net (ph_tol p) (ph_starts p) (ph_ends p) (ph_ranges p) = Ok p /\
    ph_ranges p = [x; y] /\ to_right net (lane_id x) = Some (lane_id y) /\ ComputeLaneSRangeRelation net [p] x y = Ok kAdjacentLeft.
Proof.
  exists demo, (mk_phase (1 # 1000) [pos 3 0] [pos 2 10] [rng 3 0 10; rng 2 0 10]), (rng 3 0 10), (rng 2 0 10). repeat split; reflexivity.
Qed.
Print Assumptions phase_right_to_left_refuted.

(** Finding: the Route constructor does not look at connectivity at all. *)
Theorem route_constructor_connectivity_refuted :
  exists net phases, Route phases = Ok phases /\ Connected net phases = Ok false /\
    forall start fuel, start = pos 1 0 -> ComputeLaneSRoute net fuel phases start = Throw.
Proof.
  exists demo, [mk_phase (1 # 1000) [pos 1 0] [pos 1 10] [rng 1 0 10]; mk_phase (1 # 1000) [pos 12 0] [pos 12 10] [rng 12 0 10]].
  split; [reflexivity|]. split; [reflexivity|]. intros start fuel ->. reflexivity.
Qed.
Print Assumptions route_constructor_connectivity_refuted.

(** A positive answer of the connectivity check: one start, one end, and every end
    position of a phase has a start position of the next close to it, on the same lane or
    on one joined to it. *)
Theorem connected_sound net r : Connected net r = Ok true ->
  (exists a s, hd_error r = Some a /\ ph_starts a = [s]) /\ (exists z e, last r z = z /\ In z r /\ ph_ends z = [e]) /\
  forall k a b, nth_error r k = Some a -> nth_error r (S k) = Some b -> length (ph_ends a) = length (ph_starts b) /\
    forall e, In e (ph_ends a) -> exists s, In s (ph_starts b) /\ close_positions net e s /\ lanes_connected net (at_lane e) (at_lane s).
Proof.
  unfold Connected. destruct r as [|a r]; [discriminate|]. destruct (rev (a :: r)) as [|z t] eqn:E; [discriminate|].
  intro H. injection H as H. rewrite !andb_true_iff in H. destruct H as [[H1 H2] H3]. apply Nat.eqb_eq in H1. apply Nat.eqb_eq in H2.
  assert (Er : a :: r = rev t ++ [z]) by (rewrite <- (rev_involutive (a :: r)), E; reflexivity).
  split; [|split].
  - destruct (ph_starts a) as [|s [|? ?]] eqn:Es; try discriminate. exists a, s. auto.
  - destruct (ph_ends z) as [|e [|? ?]] eqn:Es; try discriminate. exists z, e. rewrite Er. split; [apply last_last|]. split; auto. apply in_or_app. right. left. auto.
  - intros k a' b' A B. destruct (phases_connected_sound net (a :: r) H3 k a' b' A B) as [L C]. split; auto. intros e I. apply end_connected_sound; auto.
Qed.
Print Assumptions connected_sound.
Example connected_example : Connected demo demo_route = Ok true.
Proof. reflexivity. Qed.

(** Conversely: with at most one start position per lane, a route in which every end
    position has a close start position on the same lane is accepted. *)
Theorem connected_complete_same_lane net r a z s e : hd_error r = Some a -> last r z = z -> In z r -> ph_starts a = [s] -> ph_ends z = [e] ->
  (forall k p q, nth_error r k = Some p -> nth_error r (S k) = Some q -> length (ph_ends p) = length (ph_starts q) /\
     (forall u v, In u (ph_starts q) -> In v (ph_starts q) -> at_lane u = at_lane v -> u = v) /\
     forall e', In e' (ph_ends p) -> exists s', In s' (ph_starts q) /\ at_lane s' = at_lane e' /\ close_positions net e' s') ->
  Connected net r = Ok true.
Proof.
  intros Ha Hz Iz Hs He H. destruct r as [|a' r]; [discriminate|]. cbn in Ha. inversion Ha; subst a'. unfold Connected.
  destruct (rev (a :: r)) as [|z' t] eqn:E; [apply (f_equal (@length _)) in E; rewrite rev_length in E; discriminate|].
  assert (Er : a :: r = rev t ++ [z']) by (rewrite <- (rev_involutive (a :: r)), E; reflexivity).
  rewrite Er, last_last in Hz. subst z'. rewrite Hs, He. cbn [length Nat.eqb andb]. f_equal. apply phases_connected_complete.
  intros k p q P Q. destruct (H k p q P Q) as (L & U & C). split; auto. intros e' I. destruct (C e' I) as (s' & Is & El & Cl).
  unfold end_connected. destruct (find (fun s0 => Nat.eqb (at_lane s0) (at_lane e')) (ph_starts q)) as [s''|] eqn:F.
  - apply find_some in F. destruct F as [I2 E2]. apply Nat.eqb_eq in E2. rewrite (U s'' s' I2 Is); [|congruence]. apply position_close_iff; auto.
  - exfalso. pose proof (find_none _ _ F s' Is) as N. cbn in N. apply Nat.eqb_neq in N. auto.
Qed.
Print Assumptions connected_complete_same_lane.
Example connected_complete_example :
  Connected demo [mk_phase (1 # 1000) [pos 1 0] [pos 1 5; pos 2 5] [rng 1 0 5; rng 2 0 5];
                  mk_phase (1 # 1000) [pos 2 5; pos 1 5] [pos 2 10] [rng 1 5 10; rng 2 5 10]] = Ok true.
Proof. reflexivity. Qed.

(** Finding: the check is not one-to-one: two end positions may be matched with the same
    start position while another start position is left unconnected. *)
Theorem connected_one_to_one_refuted :
  exists net r a b s, Connected net r = Ok true /\ r = [a; b] /\ In s (ph_starts b) /\ forall e, In e (ph_ends a) -> ~ close_positions net e s.
Proof.
  exists demo, [mk_phase (1 # 1000) [pos 1 0] [pos 1 10; pos 1 10] [rng 1 0 10]; mk_phase (1 # 1000) [pos 11 0; pos 12 0] [pos 11 10] [rng 11 0 10; rng 12 0 10]],
    (mk_phase (1 # 1000) [pos 1 0] [pos 1 10; pos 1 10] [rng 1 0 10]), (mk_phase (1 # 1000) [pos 11 0; pos 12 0] [pos 11 10] [rng 11 0 10; rng 12 0 10]), (pos 12 0).
  split; [reflexivity|]. split; [reflexivity|]. split; [right; left; reflexivity|].
  intros e [<-|[<-|[]]] (_ & H & _); vm_compute in H; apply H; reflexivity.
Qed.
Print Assumptions connected_one_to_one_refuted.

(** A lane route never leaves the route. *)
Theorem lane_s_route_on_route net fuel r start l : ComputeLaneSRoute net fuel r start = Ok l -> forall x, In x l -> exists p i, range_at r p i x.
Proof. intros E x I. pose proof (lane_s_route_members net r fuel start l E) as F. rewrite Forall_forall in F. apply F; auto. Qed.
Print Assumptions lane_s_route_on_route.

(** From a start on the route to its end: when no range repeats an earlier one, the
    search terminates; it succeeds exactly when every phase in between starts where the
    one before ends, and then steps between neighbours or to a touching range of the next
    phase, from the start's range to the end's. *)
Theorem lane_s_route_reaches_end net r fuel start e si ei : (0 <= tolerance net)%Q -> ranges_ok r -> ranges_distinct net r ->
  last_end r = Ok e -> (0 <= ps (at_pos start))%Q -> (0 <= ps (at_pos e))%Q ->
  resolves net r (point_range start) si -> resolves net r (point_range e) ei ->
  (forall p, nth_error r (fst si) = Some p -> length (ph_ranges p) <= fuel) ->
  (fst si <= fst ei /\ (forall p, fst si < p <= fst ei -> phase_reachable net r p) ->
     exists l, ComputeLaneSRoute net fuel r start = Ok l /\ trail net r si ei l) /\
  (fst ei < fst si \/ (exists p, fst si < p <= fst ei /\ ~ phase_reachable net r p) -> ComputeLaneSRoute net fuel r start = Throw).
Proof. intros T R D L S0 E0 Rs Re F. apply (compute_lane_s_route_spec net r T R D fuel start e (point_range e) si ei); auto. Qed.
Print Assumptions lane_s_route_reaches_end.
Example lane_s_route_example :
  ranges_distinct demo demo_route /\ resolves demo demo_route (point_range (pos 3 4)) (0, 2) /\ resolves demo demo_route (point_range (pos 11 10)) (1, 0) /\
  phase_reachable demo demo_route 1 /\
  ComputeLaneSRoute demo 3 demo_route (pos 3 4) = Ok [rng 3 0 10; rng 2 0 10; rng 1 0 10; rng 11 0 10] /\
  ComputeLaneSRoute demo 3 gap_route (pos 1 0) = Throw.
Proof.
  split; [apply demo_distinct|]. split; [apply demo_resolves; [rok|reflexivity]|]. split; [apply demo_resolves; [rok|reflexivity]|].
  split; [|split; reflexivity]. exists 0, 0, 0, (rng 1 0 10), (rng 11 0 10). split; auto. split; [eexists; split; reflexivity|]. split; [eexists; split; reflexivity|].
  vm_compute. discriminate.
Qed.

(** Finding: the lane route contains the whole range the start is on, not the part from
    the start on. *)
Theorem lane_s_route_begins_at_start_refuted :
  exists net r start fuel x l, ComputeLaneSRoute net fuel r start = Ok (x :: l) /\ ~ (s0 (s_range x) == ps (at_pos start))%Q.
Proof. exists demo, demo_route, (pos 3 4), 3, (rng 3 0 10), [rng 2 0 10; rng 1 0 10; rng 11 0 10]. split; [reflexivity|]. vm_compute. discriminate. Qed.
Print Assumptions lane_s_route_begins_at_start_refuted.

(** Off the route it throws (the documentation promises the closest route position). *)
Theorem lane_s_route_off_route_throws net fuel r start e : (0 <= tolerance net)%Q -> ranges_ok r -> last_end r = Ok e ->
  (forall p i x, range_at r p i x -> ~ covers (tolerance net) x (point_range start)) -> ComputeLaneSRoute net fuel r start = Throw.
Proof.
  intros T R L H. unfold ComputeLaneSRoute. rewrite L. cbn [obind]. unfold point, SRange.
  destruct (Qleb_spec 0 (ps (at_pos e))) as [|]; [|reflexivity]. cbn [andb obind throw_unless]. destruct (Qleb_spec 0 (ps (at_pos start))) as [P|]; [|reflexivity]. cbn [andb obind throw_unless].
  change (mk_lsrange (at_lane start) _) with (point_range start). rewrite (proj2 (lookup_none net r T R (point_range start) (conj P P)) H). reflexivity.
Qed.
Print Assumptions lane_s_route_off_route_throws.
Example lane_s_route_off_route_example : (forall p i x, range_at demo_route p i x -> ~ covers (tolerance demo) x (point_range (pos 1 11))).
Proof.
  apply (proj1 (lookup_none demo demo_route demo_tol demo_ranges_ok (point_range (pos 1 11)) ltac:(rok))). reflexivity.
Qed.

(** Finding: when a range repeats an earlier one within the tolerance, the search may
    never end: it swings between two lanes, adding a range each time. *)
Definition swing : network := mk_net
  (fun l => if existsb (Nat.eqb l) [1; 2; 3] then Some 11%Q else None)
  (fun l => match l with 1 => Some 2 | 2 => Some 3 | _ => None end)
  (fun l => match l with 2 => Some 1 | 3 => Some 2 | _ => None end)
  (fun _ _ => []) place (fun _ _ => mk_vec 1 0 0) (fun _ _ => mk_vec 0 0 1)
  (fun l v => (mk_lpos (vx v) 0 0, v, 0%Q)) apart (fun _ _ => ((-(2))%Q, 2%Q)) 1.
Definition swing_route : list phase :=
  [mk_phase 1 [pos 2 0] [pos 2 10] [rng 2 0 10; rng 1 0 10; rng 2 0 10; rng 3 0 10];
   mk_phase 1 [pos 2 0] [pos 2 12] [rng 1 0 11; rng 2 0 11; rng 3 0 11]].
Lemma swing_forever fuel : forall acc, switch_loop swing fuel swing_route (1, 0) (1, 1) acc = UB /\ switch_loop swing fuel swing_route (1, 0) (1, 2) acc = UB.
Proof.
  induction fuel as [|fuel IH]; intro acc; [split; reflexivity|].
  split.
  - change (switch_loop swing (S fuel) swing_route (1, 0) (1, 1) acc) with (switch_loop swing fuel swing_route (1, 0) (1, 2) (rng 2 0 11 :: acc)). apply IH.
  - change (switch_loop swing (S fuel) swing_route (1, 0) (1, 2) acc) with (switch_loop swing fuel swing_route (1, 0) (1, 1) (rng 3 0 11 :: acc)). apply IH.
Qed.
Theorem lane_s_route_terminates_refuted :
  exists net r start, (forall p, In p r -> Phase net (ph_tol p) (ph_starts p) (ph_ends p) (ph_ranges p) = Ok p) /\ Route r = Ok r /\
    (exists p, In p r /\ exists x, In x (ph_ranges p) /\ covers (tolerance net) x (point_range start)) /\
    forall fuel, ComputeLaneSRoute net fuel r start = UB.
Proof.
  exists swing, swing_route, (pos 1 12). split; [intros p [<-|[<-|[]]]; reflexivity|]. split; [reflexivity|]. split.
  - exists (nth 1 swing_route (mk_phase 0 [] [] [])). split; [right; left; reflexivity|]. exists (rng 1 0 11). split; [left; reflexivity|].
    split; [reflexivity|]. intros s [->| ->]; split; [left|right|left|right]; vm_compute; discriminate.
  - intro fuel. change (ComputeLaneSRoute swing fuel swing_route (pos 1 12)) with (switch_loop swing fuel swing_route (1, 0) (1, 1) []). apply swing_forever.
Qed.
Print Assumptions lane_s_route_terminates_refuted.

(** ** C42 *)
Definition phase_valid (p : phase) : Prop := (0 <= ph_tol p)%Q /\ ph_ranges p <> [] /\ forall x, In x (ph_ranges p) -> range_ok x.

(** FindPhasePosition(InertialPosition) answers with what one of the phase's ranges
    offers, and no range offers something closer by more than the accumulated comparison
    tolerance. *)
Theorem find_phase_position_closest net p v : phase_valid p -> nearest_ok net v ->
  exists q x, FindPhasePositionI net p v = Ok q /\ nth_error (ph_ranges p) (pp_index q) = Some x /\
    offers net (ph_tol p) v x (pp_pos q) (pp_near q) (pp_dist q) /\
    forall y p' n' d', In y (ph_ranges p) -> offers net (ph_tol p) v y p' n' d' -> (pp_dist q <= d' + nQ (length (ph_ranges p) - 1) * eps)%Q.
Proof. intros (T & Ne & R) N. apply phase_position_spec; auto. Qed.
Print Assumptions find_phase_position_closest.
Example find_phase_position_example :
  FindPhasePositionI demo (nth 0 demo_route (mk_phase 0 [] [] [])) (mk_vec 3 9 0) = Ok (mk_ppos 1 (mk_lpos 3 1 0) (mk_vec 3 9 0) 0).
Proof. vm_compute. reflexivity. Qed.

(** FindRoutePosition(InertialPosition): the same over the phases. *)
Theorem find_route_position_closest net r v : r <> [] -> (forall p, In p r -> phase_valid p) -> nearest_ok net v ->
  exists i q p x, FindRoutePositionI net r v = Ok (i, q) /\ nth_error r i = Some p /\ nth_error (ph_ranges p) (pp_index q) = Some x /\
    offers net (ph_tol p) v x (pp_pos q) (pp_near q) (pp_dist q) /\
    forall p' y l' n' d', In p' r -> In y (ph_ranges p') -> offers net (ph_tol p') v y l' n' d' ->
      (pp_dist q <= d' + (nQ (length (ph_ranges p') - 1) + nQ (length r - 1)) * eps)%Q.
Proof.
  intros Ne V N. destruct (route_position_spec net r v Ne V N) as (i & q & p & E & Np & Ep & M).
  destruct (V p (nth_error_In _ _ Np)) as (T & Nr & R). destruct (phase_position_spec net p v T Nr R N) as (q' & x & Eq & Nx & O & _).
  rewrite Ep in Eq. inversion Eq; subst q'. exists i, q, p, x. split; auto. split; auto. split; auto. split; auto.
  intros p' y l' n' d' Ip Iy Of. destruct (V p' Ip) as (T' & Nr' & R'). destruct (phase_position_spec net p' v T' Nr' R' N) as (q' & x' & Eq' & _ & _ & M').
  specialize (M p' q' Ip Eq'). specialize (M' y l' n' d' Iy Of). unfold eps in *. lra.
Qed.
Print Assumptions find_route_position_closest.
Example find_route_position_example :
  FindRoutePositionI demo demo_route (mk_vec 14 9 0) = Ok (1, mk_ppos 1 (mk_lpos 4 1 0) (mk_vec 14 9 0) 0).
Proof. vm_compute. reflexivity. Qed.

(** FindRoutePosition(RoadPosition): a position covered by some phase is answered by the
    first such phase, any other like its inertial position. *)
Theorem find_route_position_first_phase net r q : (forall p, In p r -> phase_valid p) -> (0 <= ps (at_pos q))%Q ->
  (forall i p x, nth_error r i = Some p -> In x (ph_ranges p) -> covers (ph_tol p) x (point_range q) ->
     (forall j p', j < i -> nth_error r j = Some p' -> forall y, In y (ph_ranges p') -> ~ covers (ph_tol p') y (point_range q)) ->
     exists k y n d lp, FindRoutePositionR net r q = Ok (i, mk_ppos k lp n d) /\ nth_error (ph_ranges p) k = Some y /\ lane_id y = at_lane q /\
       nearest net (at_lane q) (inertial net (at_lane q) (mk_lpos (ps (at_pos q)) 0 0)) = (lp, n, d)) /\
  ((forall p x, In p r -> In x (ph_ranges p) -> ~ covers (ph_tol p) x (point_range q)) ->
     FindRoutePositionR net r q = FindRoutePositionI net r (inertial net (at_lane q) (at_pos q))).
Proof.
  intros V P. destruct (find_phase_spec r q 0 V P) as (o & Eo & So). unfold FindRoutePositionR. rewrite Eo. cbn [obind]. split.
  - intros i p x Np Ix Cx Fi. destruct o as [[i' p']|]; [|exfalso; apply (So p x (nth_error_In _ _ Np) Ix Cx)].
    destruct So as (_ & Np' & (y & Iy & Cy) & Fi'). rewrite Nat.sub_0_r in *.
    assert (i' = i). { destruct (Nat.lt_trichotomy i i') as [L|[->|L]]; auto; exfalso; [apply (Fi' i p L Np x Ix Cx)|apply (Fi i' p' L Np' y Iy Cy)]. }
    subst i'. rewrite Np in Np'. inversion Np'; subst p'. destruct (V p (nth_error_In _ _ Np)) as (T & _ & R).
    unfold FindPhasePositionR. destruct (validate_spec q (ph_ranges p) (ph_tol p) T R P) as (b & Eb & Sb). rewrite Eb. rewrite (proj2 Sb) by eauto. cbn [obind].
    destruct (nearest net (at_lane q) _) as [[lp n] d] eqn:En.
    destruct (find_index_spec (fun z => Nat.eqb (lane_id z) (at_lane q)) (ph_ranges p)) as (z & Nz & Ez & _).
    { exists y. split; auto. apply Nat.eqb_eq. destruct Cy as [Cy _]. exact Cy. }
    apply Nat.eqb_eq in Ez. eexists _, z, n, d, lp. split; [reflexivity|]. auto.
  - intro H. destruct o as [[i' p']|]; auto. exfalso. destruct So as (_ & Np' & (y & Iy & Cy) & _). apply (H p' y (nth_error_In _ _ Np') Iy Cy).
Qed.
Print Assumptions find_route_position_first_phase.
Example find_route_position_first_phase_example :
  FindRoutePositionR demo demo_route (pos 12 3) = Ok (1, mk_ppos 1 (mk_lpos 3 0 0) (mk_vec 13 8 0) 0).
Proof. vm_compute. reflexivity. Qed.

(** Finding: the answer of FindPhasePosition(InertialPosition) need not be closest: when
    the lane's nearest point is beyond the range, the end of the range is taken on the
    centerline whatever the lateral offset of the query. *)
Definition wide : network := mk_net
  (fun _ => Some 10%Q) (fun _ => None) (fun _ => None) (fun _ _ => []) place (fun _ _ => mk_vec 1 0 0) (fun _ _ => mk_vec 0 0 1)
  (fun l v => let p := mk_lpos (clip 0 10 (vx v - lane_x l)) (clip (-(5)) 5 (vy v - lane_y l)) (vz v) in (p, place l p, 0%Q))
  (fun u v => if Qeq_bool (sq_dist u v) 25 then 5 else if Qeq_bool (sq_dist u v) 9 then 3 else 0)%Q
  (fun _ _ => ((-(5))%Q, 5%Q)) (1 # 1000).
Theorem find_phase_position_minimal_refuted :
  exists net p v q x lp, FindPhasePositionI net p v = Ok q /\ (pp_dist q * pp_dist q == sq_dist (pp_near q) v)%Q /\
    In x (ph_ranges p) /\ covers 0 x (point_range (mk_rpos (lane_id x) lp)) /\ (fst (bounds net (lane_id x) (ps lp)) <= pr lp <= snd (bounds net (lane_id x) (ps lp)))%Q /\
    (sq_dist (inertial net (lane_id x) lp) v + 16 <= sq_dist (pp_near q) v)%Q.
Proof.
  exists wide, (mk_phase (1 # 1000) [pos 1 0] [pos 1 5] [rng 1 0 5]), (mk_vec 8 8 0), (mk_ppos 0 (mk_lpos 5 0 0) (mk_vec 5 4 0) 5), (rng 1 0 5), (mk_lpos 5 4 0).
  split; [vm_compute; reflexivity|]. split; [vm_compute; reflexivity|]. split; [left; reflexivity|].
  split; [split; [reflexivity|]; intros s [->| ->]; split; [left|right|left|right]; vm_compute; discriminate|].
  split; [split; vm_compute; discriminate|vm_compute; discriminate].
Qed.
Print Assumptions find_phase_position_minimal_refuted.

(** Finding: FindPhasePosition(RoadPosition) reports the first range of the lane even if
    the position is on another. *)
Theorem find_phase_position_range_refuted :
  exists net p q k lp n d x y, FindPhasePositionR net p q = Ok (mk_ppos k lp n d) /\ ps lp = ps (at_pos q) /\
    nth_error (ph_ranges p) k = Some x /\ ~ covers (ph_tol p) x (point_range q) /\ In y (ph_ranges p) /\ covers (ph_tol p) y (point_range q) /\
    Phase net (ph_tol p) (ph_starts p) (ph_ends p) (ph_ranges p) = Ok p.
Proof.
  exists demo, (mk_phase (1 # 1000) [pos 1 0] [pos 1 10] [rng 1 0 5; rng 2 0 10; rng 1 5 10]), (pos 1 8), 0, (mk_lpos 8 0 0), (mk_vec 8 4 0), 0%Q, (rng 1 0 5), (rng 1 5 10).
  split; [vm_compute; reflexivity|]. split; [reflexivity|]. split; [reflexivity|].
  split; [intros [_ H]; destruct (H 8%Q (or_introl eq_refl)) as [_ [H'|H']]; vm_compute in H'; apply H'; reflexivity|].
  split; [right; right; left; reflexivity|]. split; [|reflexivity].
  split; [reflexivity|]; intros s [->| ->]; split; [left|right|left|right]; vm_compute; discriminate.
Qed.
Print Assumptions find_phase_position_range_refuted.
