(** Proofs for C109. *)
From Coq Require Import List Permutation ZArith Lia Bool.
From Coq Require Import Floats.SpecFloat.
From Verif Require Import Base Binary64 Binary64_Round Binary64_Order Binary64_Ext KdTree_Model KdFloat_Model KdFloat_Spec KdFloat_Proofs Binary64_Sqrt Doubles_Model Doubles_Spec KdRange_Model KdRange_Spec KdRange_Proofs Closest_Model Closest_Spec Closest_Proofs.
Import ListNotations.
Local Open Scope Z_scope.

(** Lists with lanes only. *)
Lemma lanes_at_ok l : (forall m, In m l -> exists n, snd m = Some n) -> exists ls, lanes_at l = Ok ls /\ List.length ls = List.length l /\
  forall n, In n ls <-> exists m, In m l /\ snd m = Some n.
Proof.
  induction l as [|[v o] l IH]; intros H; [exists []; split; [reflexivity|]; split; [reflexivity|]; intros n; split; [intros []|intros (m & [] & _)]|].
  destruct IH as (ls & E & L & I); [intros m M; apply H; right; exact M|]. destruct (H (v, o) (or_introl eq_refl)) as (n & Hn). cbn [snd] in Hn. subst o.
  exists (n :: ls). cbn [lanes_at]. rewrite E. split; [reflexivity|]. split; [cbn [List.length]; rewrite L; reflexivity|]. intros k. cbn [In]. rewrite I. split.
  - intros [<-|(m & M & S)]; [exists (v, Some n); auto|exists m; auto].
  - intros (m & [<-|M] & S); [left; cbn in S; congruence|right; exists m; auto].
Qed.
Lemma tolerance_double : is_double default_tolerance /\ 0 <= val default_tolerance.
Proof. split; [split; vm_compute; reflexivity|vm_compute; discriminate]. Qed.

(** Corners of the search region and points in the exact cube. *)
Lemma corner_sub p h : is_double p -> number h -> 0 <= place h -> number (fsub p h) /\ number (fadd p h) /\ place (fsub p h) <= val p <= place (fadd p h) /\
  forall c, is_double c -> (finite h = false \/ Z.abs (val c - val p) <= val h) -> place (fsub p h) <= val c <= place (fadd p h).
Proof.
  intros P H G. assert (I : forall s, number (S754_infinity s)) by (intros s; split; [reflexivity|discriminate]). pose proof top_pos as T.
  destruct (number_cases h H) as [D|[->| ->]]; [| |cbn [place] in G; lia].
  - destruct (result_place _ _ (fsub_spec p h P D)) as (A & B), (result_place _ _ (fadd_spec p h P D)) as (A' & B'). destruct (double_number h D) as (_ & PH & _). rewrite PH in G.
    assert (K : forall c, is_double c -> Z.abs (val c - val p) <= val h -> place (fsub p h) <= val c <= place (fadd p h)).
    { intros c C L. destruct (val_repr c C) as (R & X). rewrite B, B'. pose proof (rnd_le (val p - val h) (val c) R ltac:(lia)). pose proof (rnd_ge (val p + val h) (val c) R ltac:(lia)). unfold cap. lia. }
    split; [exact A|]. split; [exact A'|]. split; [apply K; [exact P|lia]|]. intros c C [F|L]; [destruct D as [_ F']; congruence|apply K; assumption].
  - assert (E : fsub p pinf = ninf /\ fadd p pinf = pinf) by (destruct P as [_ F]; destruct p; try discriminate; split; reflexivity). unfold pinf, ninf in E. destruct E as (-> & ->).
    split; [apply I|]. split; [apply I|]. split; [cbn [place]; pose proof (proj2 (val_repr p P)); lia|]. intros c C _. cbn [place]. pose proof (proj2 (val_repr c C)). lia.
Qed.
Lemma sampled_finite pts : sampled pts -> forall m, In m pts -> finite_point mpoint mpoint_coord 3 m.
Proof. intros S m M i L. destruct (S m M) as ((A & B & C) & _). destruct i as [|[|[|i]]]; [exact A|exact B|exact C|lia]. Qed.

Definition cube (p : vec) (h : double) : box :=
  mk_box (mk_vec (fsub (vx p) h) (fsub (vy p) h) (fsub (vz p) h)) (mk_vec (fadd (vx p) h) (fadd (vy p) h) (fadd (vz p) h)) default_tolerance.
Lemma cube_ok p h : vec_double p -> number h -> 0 <= place h -> region_ok (cube p h) /\
  forall m, vec_double (fst m) -> in_cube p h m -> within_box mpoint mpoint_coord (cube p h) m.
Proof.
  intros (X & Y & Z) H G. destruct tolerance_double as (T & T0).
  destruct (corner_sub (vx p) h X H G) as (A1 & B1 & C1 & D1), (corner_sub (vy p) h Y H G) as (A2 & B2 & C2 & D2), (corner_sub (vz p) h Z H G) as (A3 & B3 & C3 & D3). split.
  - unfold region_ok, vec_number, cube. cbn [min_corner max_corner tolerance vx vy vz]. repeat match goal with |- _ /\ _ => split end; try assumption; lia.
  - intros m (MX & MY & MZ) I. unfold within_box, between_corners, cube, fto_vec. cbn [min_corner max_corner vx vy vz mpoint_coord].
    destruct (double_number _ MX) as (_ & -> & _), (double_number _ MY) as (_ & -> & _), (double_number _ MZ) as (_ & -> & _).
    split; [apply D1; [exact MX|]|split; [apply D2; [exact MY|]|apply D3; [exact MZ|]]]; (destruct I as [I|(I1 & I2 & I3)]; [left; exact I|right; assumption]).
Qed.

(** Lanes near a point: those of the sampled points that the region contains, among them those in the exact cube. *)
Lemma closest_lanes ne pts p h : nth_element_finite mpoint mpoint_coord ne -> pts <> [] -> sampled pts -> vec_double p -> number h -> 0 <= place h ->
  exists t ls, fKDTree3D mpoint mpoint_coord ne pts = Ok t /\ fClosestLanes t p h = Ok ls /\ (List.length ls <= List.length pts)%nat /\
    (forall n, In n ls -> exists m, In m pts /\ snd m = Some n /\ DoContains (cube p h) (fst m) = true) /\
    (forall m n, In m pts -> snd m = Some n -> in_cube p h m -> In n ls).
Proof.
  intros N NE S P H G. destruct (tree_built mpoint mpoint_coord ne pts N NE (sampled_finite pts S)) as (t & E & Pm & C).
  assert (FE : forall x, In x (felements mpoint t) -> In x pts) by (intros x X; eapply Permutation_in; [apply Permutation_sym, Pm|exact X]).
  destruct (cube_ok p h P H G) as (R & W).
  destruct (search mpoint mpoint_coord (cube p h) t (fun _ => false) R (fun x X => sampled_finite pts S x (FE x X)) C ltac:(discriminate)) as (SL & DC & _).
  set (found := fRangeSearch mpoint mpoint_coord (cube p h) t) in *.
  assert (SI : forall x, In x found -> In x pts). { intros x X. apply FE. revert X. clear - SL. induction SL as [|y a b A IH|y a b A IH]; intros X; [destruct X|right; auto|destruct X as [->|X]; [left; reflexivity|right; auto]]. }
  assert (LL : (List.length found <= List.length pts)%nat). { rewrite (Permutation_length Pm). clear - SL. induction SL; cbn [List.length]; lia. }
  destruct (lanes_at_ok found) as (ls & EL & LE & I); [intros m M; apply S, SI, M|].
  exists t, ls. split; [exact E|]. split; [unfold fClosestLanes; cbv zeta; fold (cube p h); pose proof (built _ _ _ R) as B; unfold cube in B; cbn [min_corner max_corner tolerance] in B; rewrite B; exact EL|].
  split; [rewrite LE; exact LL|]. split.
  - intros n Hn. apply I in Hn as (m & M & Sn). exists m. split; [apply SI, M|]. split; [exact Sn|]. pose proof (DC m M) as X. unfold fto_vec in X. cbn [mpoint_coord] in X. destruct m as [[x y z] o]. exact X.
  - intros m n M Sn Q. apply I. exists m. split; [|exact Sn].
    pose (le3 := fun a b c => (a <=? b) && (b <=? c)).
    pose (g := fun y : mpoint => le3 (place (vx (min_corner (cube p h)))) (place (vx (fst y))) (place (vx (max_corner (cube p h)))) &&
      (le3 (place (vy (min_corner (cube p h)))) (place (vy (fst y))) (place (vy (max_corner (cube p h)))) &&
       le3 (place (vz (min_corner (cube p h)))) (place (vz (fst y))) (place (vz (max_corner (cube p h)))))).
    assert (Hg : forall y, g y = true <-> within_box mpoint mpoint_coord (cube p h) y).
    { intros y. unfold g, le3, within_box, between_corners, fto_vec. cbn [vx vy vz mpoint_coord]. rewrite !andb_true_iff, !Z.leb_le. tauto. }
    destruct (search mpoint mpoint_coord (cube p h) t g R (fun x X => sampled_finite pts S x (FE x X)) C (fun y => proj1 (Hg y))) as (_ & _ & Q').
    assert (IF : In m (filter g (felements mpoint t))) by (apply filter_In; split; [eapply Permutation_in; [exact Pm|exact M]|apply Hg, W; [apply S, M|exact Q]]).
    rewrite <- Q' in IF. apply filter_In in IF. tauto.
Qed.

(** ** Distances *)
Lemma distance_number p m : vec_double p -> vec_double m -> number (distance_to p m) /\ 0 <= place (distance_to p m).
Proof.
  intros (A1 & A2 & A3) (B1 & B2 & B3). unfold distance_to. cbv zeta. fold (fsq (vx p) (vx m)) (fsq (vy p) (vy m)) (fsq (vz p) (vz m)).
  destruct (fsq_place _ _ A1 B1) as (N1 & _ & P1), (fsq_place _ _ A2 B2) as (N2 & _ & P2), (fsq_place _ _ A3 B3) as (N3 & _ & P3).
  assert (N0 : number fzero /\ 0 <= place fzero) by (split; [split; [reflexivity|discriminate]|cbn; lia]). destruct N0 as (N0 & P0).
  destruct (fadd_up _ _ N0 N1 P0 P1) as (M1 & L1 & _). destruct (fadd_up _ _ M1 N2 ltac:(lia) P2) as (M2 & L2 & _). destruct (fadd_up _ _ M2 N3 ltac:(lia) P3) as (M3 & L3 & _).
  apply fsqrt_number; [exact M3|lia].
Qed.
Lemma half_edge p m step : vec_double p -> vec_double m -> is_double step -> 0 <= val step ->
  number (fadd (distance_to p m) (fmul (fint 2) step)) /\ 0 <= place (fadd (distance_to p m) (fmul (fint 2) step)).
Proof.
  intros P M S S0. destruct (distance_number p m P M) as (N & G). assert (D2 : is_double (fint 2) /\ 0 < val (fint 2)) by (split; [split; reflexivity|reflexivity]). destruct D2 as (D2 & V2).
  destruct (result_place _ _ (fmul_spec (fint 2) step D2 S)) as (NM & PM). assert (0 <= rndm (val (fint 2) * val step)) by (apply rndm_ge; [exists 0, 0; repeat split; lia|rewrite Z.mul_0_l; apply Z.mul_nonneg_nonneg; lia]).
  pose proof top_pos. assert (GM : 0 <= place (fmul (fint 2) step)) by (rewrite PM; unfold cap; lia). destruct (fadd_up _ _ N NM G GM) as (A & B & _). split; [exact A|lia].
Qed.
Lemma without_regions_init coord : forall (t : tree mpoint) left reg pp i t', fInitialize3dRegions mpoint coord left reg pp i t = Ok t' -> without_regions t' = t.
Proof.
  induction t as [|p j l IHl r IHr]; intros left reg pp i t' H; cbn [fInitialize3dRegions] in H; [injection H as <-; reflexivity|].
  destruct (AxisAlignedBox _ _ _); [|discriminate|discriminate]. cbn [obind] in H. destruct (GetIntersection _ _) as [[r0|]| |]; try discriminate. cbn [obind] in H.
  destruct (fInitialize3dRegions mpoint coord true r0 p j l) eqn:E1; try discriminate. cbn [obind] in H. destruct (fInitialize3dRegions mpoint coord false r0 p j r) eqn:E2; try discriminate. cbn [obind] in H. injection H as <-.
  cbn [without_regions]. rewrite (IHl _ _ _ _ _ E1), (IHr _ _ _ _ _ E2). reflexivity.
Qed.
Lemma without_regions_tree coord ne l t : fKDTree3D mpoint coord ne l = Ok t -> KDTree mpoint 3 ne l = Ok (without_regions t).
Proof.
  unfold fKDTree3D. destruct (KDTree mpoint 3 ne l) as [t0| |]; [|discriminate|discriminate]. destruct t0 as [|p j a b]; [discriminate|]. cbn [obind]. unfold fInitializeRegions. generalize (AxisAlignedBox lowest highest default_tolerance). intros [reg| |]; [|discriminate|discriminate]. cbn [obind].
  destruct (fInitialize3dRegions mpoint coord true reg p j a) eqn:E1; [|discriminate|discriminate]. cbn [obind]. destruct (fInitialize3dRegions mpoint coord false reg p j b) eqn:E2; [|discriminate|discriminate]. cbn [obind]. intros H. injection H as <-.
  cbn [without_regions]. rewrite (without_regions_init _ _ _ _ _ _ _ E1), (without_regions_init _ _ _ _ _ _ _ E2). reflexivity.
Qed.
