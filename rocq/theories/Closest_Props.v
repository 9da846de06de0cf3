(** C108: comparisons of road positions and brute force searches on doubles. *)
From Coq Require Import List ZArith Lia Bool.
From Coq Require Import Floats.SpecFloat.
From Verif Require Import Base Binary64 Binary64_Round Binary64_Order Binary64_Ext Doubles_Model Closest_Model Closest_Spec Closest_Proofs.
Import ListNotations.
Local Open Scope Z_scope.

(** The comparison is irreflexive and asymmetric for all doubles, NaN and infinities included. *)
Theorem fcloser_strict : forall lane_bounds a b, proper_result a -> proper_result b ->
  fcloser lane_bounds a a = false /\ (fcloser lane_bounds a b = true -> fcloser lane_bounds b a = false).
Proof. intros lb a b A B. split; [apply closer_irrefl, A|apply closer_asym; assumption]. Qed.
Print Assumptions fcloser_strict.

(** Finite distances, with e the double nearest to 1e-12: one that is smaller by more than e and one part in 2^53 - 1
    of the difference wins, and one that wins is exactly less than e larger. *)
Theorem fcloser_distance : exists e, about_1e12 e /\ forall lane_bounds a b, is_double (fr_dist a) -> is_double (fr_dist b) ->
  (2 ^ 53 * e < (2 ^ 53 - 1) * (val (fr_dist b) - val (fr_dist a)) -> fcloser lane_bounds a b = true) /\
  (fcloser lane_bounds a b = true -> val (fr_dist a) - val (fr_dist b) < e).
Proof. exists (val literal_eps). split; [apply eps_about|]. intros lb a b A B. split; [apply closer_far|apply closer_bound]; assumption. Qed.
Print Assumptions fcloser_distance.

(** Distances that cannot be told apart, because one is NaN or both are the same infinity, leave the choice to the
    lane bounds and to r. *)
Theorem fcloser_nan : forall lane_bounds a b,
  fr_dist a = fnan \/ fr_dist b = fnan \/ (exists s, fr_dist a = S754_infinity s /\ fr_dist b = S754_infinity s) ->
  let inside x := fle (fst (lane_bounds (fr_lane x) (fr_s x))) (fr_r x) = true /\ flt (fr_r x) (snd (lane_bounds (fr_lane x) (fr_s x))) = true in
  (fcloser lane_bounds a b = true <-> (inside a /\ ~ inside b) \/ ((inside a <-> inside b) /\ flt (fabs (fr_r a)) (fabs (fr_r b)) = true)).
Proof.
  intros lb a b H inside. rewrite closer_nan.
  2: { destruct H as [->|[->|(s & -> & ->)]]; [destruct (fr_dist b); reflexivity|destruct (fr_dist a); reflexivity|destruct s; reflexivity]. }
  assert (I : forall x, inside x <-> fwithin lb x = true) by (intros x; unfold inside, fwithin; rewrite andb_true_iff; reflexivity).
  rewrite !I. unfold tie. destruct (fwithin lb a), (fwithin lb b); cbn [andb orb negb]; destruct (flt (fabs (fr_r a)) (fabs (fr_r b))); intuition congruence.
Qed.
Print Assumptions fcloser_nan.

(** FindRoadPositions throws exactly for a radius that is negative or NaN; otherwise it returns, in their order, the
    positions on all lanes whose distance is at most the radius, and on all lanes for the infinite radius. *)
Theorem find_positions_rounded : forall to_lane rg radius, valid radius ->
  (fFindRoadPositions to_lane rg radius = Throw <-> radius = fnan \/ (number radius /\ place radius < 0)) /\
  (number radius -> 0 <= place radius ->
     fFindRoadPositions to_lane rg radius =
       Ok (filter (fun x => (match radius with S754_infinity _ => true | _ => fle (fr_dist x) radius end)) (map to_lane (all_lanes rg)))).
Proof.
  intros to_lane rg radius V. rewrite find_flat. unfold throw_unless. assert (N0 : number fzero) by (split; [reflexivity|discriminate]). split.
  - destruct (valid_cases radius V) as [->|N]; [cbn; tauto|]. pose proof (fle_place fzero radius N0 N) as F. change (place fzero) with 0 in F. destruct (fle fzero radius).
    + split; [discriminate|]. intros [->|(_ & L)]; [destruct N as [_ X]; exact (False_ind _ (X eq_refl))|]. pose proof (proj1 F eq_refl). lia.
    + split; [|reflexivity]. intros _. right. split; [exact N|]. destruct (Z_lt_le_dec (place radius) 0) as [L|L]; [exact L|]. apply F in L. discriminate.
  - intros N P. apply (fle_place fzero radius N0 N) in P as P'. rewrite P'. f_equal. apply filter_ext. intros x. destruct radius as [s|[]| |s m e]; try reflexivity. exfalso. revert P. cbn [place]. pose proof top_pos. lia.
Qed.
Print Assumptions find_positions_rounded.

(** ToRoadPosition without hint, when all distances are finite: the position on some lane, no further than that on
    any other lane but for 1e-12, with one part in 2^53 of it, per lane; and within the tolerance when some lane is. *)
Theorem to_road_position_rounded : exists e, about_1e12 e /\ forall lane_bounds to_lane rg tol,
  all_lanes rg <> [] -> (forall lane, In lane (all_lanes rg) -> is_double (fr_dist (to_lane lane))) -> is_double tol ->
  exists x, fToRoadPosition lane_bounds to_lane rg tol None = Ok x /\
    (exists lane, In lane (all_lanes rg) /\ x = to_lane lane) /\
    (forall lane, In lane (all_lanes rg) ->
      (2 ^ 53 - 1) * (val (fr_dist x) - val (fr_dist (to_lane lane))) <= Z.of_nat (List.length (all_lanes rg)) * (2 ^ 53 * e)) /\
    ((exists lane, In lane (all_lanes rg) /\ val (fr_dist (to_lane lane)) <= val tol) -> val (fr_dist x) <= val tol).
Proof.
  exists (val literal_eps). split; [apply eps_about|]. intros lb to_lane rg tol NE F T. unfold fToRoadPosition. rewrite find_flat. cbn [throw_unless fle SFleb SFcompare fzero obind is_infinite orb].
  assert (FT : filter (fun _ => true) (map to_lane (all_lanes rg)) = map to_lane (all_lanes rg)) by (induction (map to_lane (all_lanes rg)) as [|y l IH]; [reflexivity|cbn [filter]; rewrite IH; reflexivity]).
  rewrite FT. set (all := map to_lane (all_lanes rg)) in *. assert (LA : List.length all = List.length (all_lanes rg)) by apply map_length.
  assert (FA : forall y, In y all -> is_double (fr_dist y)) by (intros y Y; apply in_map_iff in Y as (l & <- & L); apply F, L).
  assert (AL : forall y, In y all -> exists lane, In lane (all_lanes rg) /\ y = to_lane lane) by (intros y Y; apply in_map_iff in Y as (l & A & B); exists l; auto).
  assert (LI : forall lane, In lane (all_lanes rg) -> In (to_lane lane) all) by (intros lane L; unfold all; apply in_map, L).
  clearbody all.
  set (near := filter (fun x => fle (fr_dist x) tol) all).
  assert (IN : forall y, In y near <-> In y all /\ val (fr_dist y) <= val tol).
  { intros y. unfold near. rewrite filter_In. split; intros (A & B); (split; [exact A|]); rewrite fle_val in * by (try assumption; apply FA, A); apply Z.leb_le; assumption. }
  assert (LN : (List.length near <= List.length all)%nat) by (unfold near; clear; induction all as [|y l IH]; cbn; [lia|]; destruct (fle _ _); cbn; lia).
  cbv zeta. clearbody near. pose proof (proj2 eps_about) as E0.
  assert (G : forall c0 c, (forall y, In y (c0 :: c) -> In y all) -> (List.length (c0 :: c) <= List.length all)%nat -> let x := fpick lb c0 (c0 :: c) in
    In x (c0 :: c) /\ forall y, In y (c0 :: c) -> (2 ^ 53 - 1) * (val (fr_dist x) - val (fr_dist y)) <= Z.of_nat (List.length (all_lanes rg)) * (2 ^ 53 * val literal_eps)).
  { intros c0 c S L x. assert (X : In x (c0 :: c)) by (destruct (pick_in lb (c0 :: c) c0) as [X|X]; [left; exact X|exact X]). split; [exact X|].
    intros y Y. pose proof (pick_closest lb (c0 :: c) c0 y ltac:(intros z [<-|Z]; apply FA, S; [left; reflexivity|exact Z]) Y) as D. fold x in D. rewrite <- LA.
    eapply Z.le_trans; [exact D|]. apply Z.mul_le_mono_nonneg_r; [apply Z.mul_nonneg_nonneg; [discriminate|apply Z.lt_le_incl, E0]|apply Nat2Z.inj_le, L]. }
  assert (C : match all with [] => Throw | _ :: _ => match match near with [] => all | _ :: _ => near end with [] => UB | x0 :: _ => Ok (fpick lb x0 match near with [] => all | _ :: _ => near end) end end
    = match near with c0 :: c => Ok (fpick lb c0 (c0 :: c)) | [] => match all with [] => Throw | c0 :: c => Ok (fpick lb c0 (c0 :: c)) end end)
    by (destruct near as [|? ?], all as [|? ?]; try reflexivity; cbn in LN; lia).
  rewrite C. clear C. destruct near as [|c0 c].
  - assert (AE : exists c0 c, all = c0 :: c) by (destruct all as [|c0 c]; [destruct (all_lanes rg); [congruence|discriminate LA]|eauto]). destruct AE as (c0 & c & AE). subst all.
    destruct (G c0 c ltac:(auto) ltac:(lia)) as (X & D). eexists. split; [reflexivity|]. split; [apply AL, X|]. split.
    + intros lane L. apply D, LI, L.
    + intros (lane & L & V). destruct (proj2 (IN (to_lane lane)) (conj (LI lane L) V)).
  - destruct (G c0 c ltac:(intros y Y; apply IN, Y) LN) as (X & D). eexists. split; [reflexivity|]. split; [apply AL, IN, X|]. pose proof (proj2 (proj1 (IN _) X)) as XT. split; [|intros _; exact XT].
    intros lane L. destruct (Z_le_gt_dec (val (fr_dist (to_lane lane))) (val tol)) as [LE|GT]; [apply D, IN; split; [apply LI, L|exact LE]|].
    apply Z.le_trans with 0; [apply Z.mul_nonneg_nonpos; [discriminate|]; revert XT GT; generalize (val (fr_dist (fpick lb c0 (c0 :: c)))); intros; lia|].
    apply Z.mul_nonneg_nonneg; [apply Nat2Z.is_nonneg|apply Z.mul_nonneg_nonneg; [discriminate|apply Z.lt_le_incl, E0]].
Qed.
Print Assumptions to_road_position_rounded.

(** A hint decides, whatever the distances; one without a lane throws, and so does a road geometry without lanes. *)
Theorem to_road_position_hint_rounded : forall lane_bounds to_lane rg tol l,
  fToRoadPosition lane_bounds to_lane rg tol (Some (Some l)) = Ok (to_lane l) /\
  fToRoadPosition lane_bounds to_lane rg tol (Some None) = Throw /\
  (all_lanes rg = [] -> fToRoadPosition lane_bounds to_lane rg tol None = Throw).
Proof. intros lb to_lane rg tol l. split; [reflexivity|]. split; [reflexivity|]. intros E. unfold fToRoadPosition. rewrite find_flat, E. reflexivity. Qed.
Print Assumptions to_road_position_hint_rounded.

(** ** Examples *)
Definition unit_bounds (l : nat) (s : double) : double * double := (fint (-2), fint 2).
Definition some_lane (l : nat) : fresult := mk_fresult l fzero (fint 1) (match l with 0%nat => fof 7 (-2) | 1%nat => fof 3 (-1) | 2%nat => fadd (fof 3 (-1)) (fof 1 (-45)) | _ => fint 9 end).
Definition some_road : list (list (list nat)) := [[[3; 0]; []]; []; [[2; 1]]]%nat.
Example to_road_position_rounded_example :
  fToRoadPosition unit_bounds some_lane some_road (fof 1 (-10)) None = Ok (some_lane 2) /\
  fFindRoadPositions some_lane some_road (fint 2) = Ok [some_lane 0; some_lane 2; some_lane 1] /\
  fFindRoadPositions some_lane some_road (fof (-1) (-60)) = Throw.
Proof. split; [vm_compute; reflexivity|]. split; vm_compute; reflexivity. Qed.
Example some_lanes_finite : all_lanes some_road <> [] /\ forall lane, In lane (all_lanes some_road) -> is_double (fr_dist (some_lane lane)).
Proof. split; [discriminate|]. intros lane L. vm_compute in L. destruct L as [<-|[<-|[<-|[<-|[]]]]]; split; vm_compute; reflexivity. Qed.
Example fcloser_example : let a := mk_fresult 0 fzero (fint 1) (fint 5) in let b := mk_fresult 1 fzero (fint (-2)) (fint 6) in
  proper_result a /\ proper_result b /\ fcloser unit_bounds a b = true /\
  fcloser unit_bounds (mk_fresult 0 fzero (fint 1) fnan) b = true /\ fcloser unit_bounds b (mk_fresult 0 fzero (fint 3) fnan) = true.
Proof. split; [split; reflexivity|]. split; [split; reflexivity|]. split; [vm_compute; reflexivity|]. split; vm_compute; reflexivity. Qed.

(** Finding: a lane whose distance is NaN can be returned although another lane has a finite distance. *)
Theorem to_road_position_finite_refuted : exists lane_bounds to_lane rg tol x lane,
  fToRoadPosition lane_bounds to_lane rg tol None = Ok x /\ fr_dist x = fnan /\ In lane (all_lanes rg) /\ is_double (fr_dist (to_lane lane)) /\
  fcloser lane_bounds (to_lane lane) x = false.
Proof.
  exists unit_bounds, (fun l => mk_fresult l fzero (fint 1) (match l with 0%nat => fnan | _ => fint 1 end)), [[[0; 1]%nat]], (fof 1 (-10)), (mk_fresult 0 fzero (fint 1) fnan), 1%nat.
  split; [vm_compute; reflexivity|]. split; [reflexivity|]. split; [right; left; reflexivity|]. split; [split; reflexivity|vm_compute; reflexivity].
Qed.
Print Assumptions to_road_position_finite_refuted.
