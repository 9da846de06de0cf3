From Coq Require Import List QArith Bool Arith Lqa Lia Permutation Morphisms.
From Verif Require Import Base KdTree_Model KdTree_Spec.
Import ListNotations.
Open Scope Q_scope.

(** ** Extended line *)
Lemma eleb_iff a b : eleb a b = true <-> ele a b.
Proof. destruct a, b; simpl; try tauto; try (split; [discriminate|tauto]); try (split; auto). apply Qleb_true. apply Qleb_true. Qed.

Lemma eltb_false a b : eltb a b = false <-> ele b a.
Proof. unfold eltb. rewrite negb_false_iff. apply eleb_iff. Qed.

Lemma ele_refl a : ele a a.
Proof. destruct a; simpl; auto; lra. Qed.
Lemma ele_trans a b c : ele a b -> ele b c -> ele a c.
Proof. destruct a, b, c; simpl; try tauto; try lra. Qed.
Lemma ele_total a b : ele a b \/ ele b a.
Proof. destruct a as [|x|], b as [|y|]; simpl; auto. destruct (Qlt_le_dec x y); [left|right]; lra. Qed.

Lemma emax_iff a b c : ele (emax a b) c <-> ele a c /\ ele b c.
Proof.
  unfold emax. destruct (eltb a b) eqn:E.
  - assert (H : ele a b).
    { unfold eltb in E. apply negb_true_iff in E. destruct (ele_total a b) as [H|H]; auto.
      apply eleb_iff in H. congruence. }
    split; [|tauto]. intro K; split; auto. eapply ele_trans; eauto.
  - apply eltb_false in E. split; [|tauto]. intro K; split; auto. eapply ele_trans; eauto.
Qed.
Lemma emin_iff a b c : ele c (emin a b) <-> ele c a /\ ele c b.
Proof.
  unfold emin. destruct (eltb b a) eqn:E.
  - assert (H : ele b a).
    { unfold eltb in E. apply negb_true_iff in E. destruct (ele_total b a) as [H|H]; auto.
      apply eleb_iff in H. congruence. }
    split; [|tauto]. intro K; split; auto. eapply ele_trans; eauto.
  - apply eltb_false in E. split; [|tauto]. intro K; split; auto. eapply ele_trans; eauto.
Qed.

(** ** Boxes *)
Lemma Box_spec mn mx tol :
  match Box mn mx tol with
  | Ok b => b = mk_box mn mx tol /\ box_wf b
  | Throw => ~ box_wf (mk_box mn mx tol)
  | UB => False
  end.
Proof.
  unfold Box, throw_unless, box_wf; simpl.
  destruct (Qleb_spec 0 tol) as [T|T]; [|intros [K _]; lra].
  destruct (eleb (vx mn) (vx mx)) eqn:X; [apply eleb_iff in X|intros (_ & K & _); apply eleb_iff in K; congruence].
  destruct (eleb (vy mn) (vy mx)) eqn:Y; [apply eleb_iff in Y|intros (_ & _ & K & _); apply eleb_iff in K; congruence].
  destruct (eleb (vz mn) (vz mx)) eqn:Z; [apply eleb_iff in Z|intros (_ & _ & _ & K); apply eleb_iff in K; congruence].
  simpl. tauto.
Qed.

Lemma Box_ok mn mx tol : box_wf (mk_box mn mx tol) -> Box mn mx tol = Ok (mk_box mn mx tol).
Proof.
  intro H. pose proof (Box_spec mn mx tol) as S. destruct (Box mn mx tol); try tauto. destruct S; congruence.
Qed.

Lemma esub_shift a t : ele (esub a t) = ele (shift a (- t)).
Proof. destruct a; reflexivity. Qed.

Lemma eadd_shift a t : eadd a t = shift a t.
Proof. destruct a; reflexivity. Qed.

Lemma BContains_iff b p : BContains b p = true <-> in_inflated b p.
Proof.
  unfold BContains, in_inflated, between, vshift; simpl.
  rewrite !andb_true_iff, !eleb_iff, !eadd_shift, !esub_shift. tauto.
Qed.

Definition axis_meet (a b : box) (f : vec3 -> ext) : Prop := ele (f (bmin b)) (f (bmax a)) /\ ele (f (bmin a)) (f (bmax b)).

Lemma IsBoxIntersected_iff a b : IsBoxIntersected a b = true <-> axis_meet a b vx /\ axis_meet a b vy /\ axis_meet a b vz.
Proof.
  unfold IsBoxIntersected, axis_meet. rewrite negb_true_iff, !orb_false_iff, !eltb_false. tauto.
Qed.

Lemma meet_point a b : box_wf a -> box_wf b ->
  (axis_meet a b vx /\ axis_meet a b vy /\ axis_meet a b vz) <-> exists p, in_box a p /\ in_box b p.
Proof.
  intros (_ & Ax & Ay & Az) (_ & Bx & By & Bz).
  unfold axis_meet, in_box, between. split.
  - intros ((X1 & X2) & (Y1 & Y2) & (Z1 & Z2)).
    exists (V3 (emax (vx (bmin a)) (vx (bmin b))) (emax (vy (bmin a)) (vy (bmin b))) (emax (vz (bmin a)) (vz (bmin b)))); simpl.
    rewrite !emax_iff.
    assert (forall u v, ele u (emax u v)). { intros u v. apply (proj1 (emax_iff u v (emax u v))). apply ele_refl. }
    assert (forall u v, ele v (emax u v)). { intros u v. apply (proj1 (emax_iff u v (emax u v))). apply ele_refl. }
    intuition.
  - intros (p & (P1 & P2 & P3) & (Q1 & Q2 & Q3)). intuition eauto using ele_trans.
Qed.

Lemma boxes_meet_iff a b : box_wf a -> box_wf b ->
  (IsBoxIntersected a b = true <-> exists p, in_box a p /\ in_box b p).
Proof. intros A B. rewrite IsBoxIntersected_iff. apply meet_point; auto. Qed.

Lemma get_intersection_spec a b : box_wf a -> box_wf b ->
  exists m, BGetIntersection a b = Ok m /\
    match m with
    | Some c => box_wf c /\ btol c = btol a /\ forall p, in_box c p <-> in_box a p /\ in_box b p
    | None => forall p, ~ (in_box a p /\ in_box b p)
    end.
Proof.
  intros A B. unfold BGetIntersection. destruct (IsBoxIntersected a b) eqn:E; simpl.
  - apply IsBoxIntersected_iff in E.
    pose proof A as (At & Ax & Ay & Az). pose proof B as (Bt & Bx & By & Bz). unfold axis_meet in E.
    rewrite Box_ok.
    + simpl. eexists; split; [reflexivity|]. simpl.
      split; [|split; [reflexivity|]].
      * unfold box_wf; simpl. rewrite !emax_iff, !emin_iff. tauto.
      * intro p. unfold in_box, between; simpl. rewrite !emax_iff, !emin_iff. tauto.
    + unfold box_wf; simpl. rewrite !emax_iff, !emin_iff. tauto.
  - eexists; split; [reflexivity|]. simpl. intros p K.
    assert (IsBoxIntersected a b = true) by (apply boxes_meet_iff; eauto). congruence.
Qed.

Lemma contained_iff a b : box_wf b -> (IsBoxContained a b = true <-> forall p, in_box b p -> in_inflated a p).
Proof.
  intros (_ & Bx & By & Bz). unfold IsBoxContained. rewrite forallb_forall. split.
  - intros H p (P1 & P2 & P3).
    assert (H1 := H _ (or_introl eq_refl)).
    assert (H8 := H (V3 (vx (bmax b)) (vy (bmax b)) (vz (bmax b)))).
    assert (I8 : In (V3 (vx (bmax b)) (vy (bmax b)) (vz (bmax b))) (get_vertices b)) by (simpl; tauto).
    specialize (H8 I8). apply BContains_iff in H1, H8.
    unfold in_inflated, between in *; simpl in *. intuition eauto using ele_trans.
  - intros H v I. apply BContains_iff. apply H. unfold in_box, between.
    pose proof (ele_refl). simpl in I. intuition; subst v; simpl; auto.
Qed.

Lemma overlaps_spec a b : box_wf a -> box_wf b ->
  (Overlaps a b = kDisjointed <-> ~ exists p, in_box a p /\ in_box b p) /\
  (Overlaps a b = kContained <-> (exists p, in_box a p /\ in_box b p) /\ forall p, in_box b p -> in_inflated a p) /\
  (Overlaps a b = kIntersected <-> (exists p, in_box a p /\ in_box b p) /\ ~ forall p, in_box b p -> in_inflated a p).
Proof.
  intros A B. unfold Overlaps.
  pose proof (boxes_meet_iff a b A B) as M. pose proof (contained_iff a b B) as C.
  destruct (IsBoxIntersected a b).
  - assert (exists p, in_box a p /\ in_box b p) by (apply M; reflexivity).
    destruct (IsBoxContained a b).
    + assert (forall p, in_box b p -> in_inflated a p) by (apply C; reflexivity).
      intuition congruence.
    + assert (~ forall p, in_box b p -> in_inflated a p) by (intro K; apply C in K; discriminate).
      intuition congruence.
  - assert (~ exists p, in_box a p /\ in_box b p) by (intro K; apply M in K; discriminate).
    intuition congruence.
Qed.

(** ** Construction *)
Section T.
Variable P : Type.
Variable coord : P -> nat -> Q.
Variable dim : nat.
Hypothesis Hdim : (0 < dim)%nat.
Variable nth_element : nat -> nat -> list P -> list P.
Hypothesis Hnth : nth_element_ok P coord nth_element.

Notation make := (MakeKdTree P dim nth_element).

Lemma div2_lt n : (0 < n)%nat -> (Nat.div2 n < n)%nat.
Proof. intro H. apply Nat.lt_div2; exact H. Qed.

Lemma make_spec fuel : forall i l, (length l <= fuel)%nat -> (i < dim)%nat ->
  exists t, make fuel i l = Ok t /\ Permutation l (elements P t) /\ kd_ordered P coord dim i t.
Proof.
  induction fuel as [|f IH]; intros i l L I.
  - destruct l; simpl in L; [|lia]. exists Null; simpl; auto.
  - destruct l as [|x0 l0]; [exists Null; simpl; auto|].
    set (l := x0 :: l0) in *. cbn [MakeKdTree]. unfold l at 1.
    fold l.
    assert (Hi : Nat.ltb i dim = true) by (apply Nat.ltb_lt; exact I). rewrite Hi. unfold throw_unless. cbv zeta.
    set (k := Nat.div2 (length l)).
    assert (K : (k < length l)%nat) by (apply div2_lt; unfold l; simpl; lia).
    clearbody l. clearbody k. destruct (Hnth i k l K) as [Pm Ord].
    set (l' := nth_element i k l) in *.
    assert (LL : length l' = length l) by (symmetry; apply Permutation_length; exact Pm).
    destruct (skipn k l') as [|p rest] eqn:Sk.
    { exfalso. assert (length (skipn k l') = 0%nat) by (rewrite Sk; reflexivity). rewrite skipn_length in H. lia. }
    assert (Dec : l' = firstn k l' ++ p :: rest) by (rewrite <- Sk; symmetry; apply firstn_skipn).
    assert (Lf : length (firstn k l') = k) by (rewrite firstn_length; lia).
    destruct (Ord _ _ _ Dec Lf) as [OL OR].
    assert (Lr : (length rest <= f)%nat).
    { assert (length (firstn k l' ++ p :: rest) = length l) by (rewrite <- Dec; exact LL).
      rewrite app_length, Lf in H; cbn [length] in H. lia. }
    assert (Hm : (Nat.modulo (i + 1) dim < dim)%nat) by (apply Nat.mod_upper_bound; lia).
    destruct (IH (Nat.modulo (i + 1) dim) (firstn k l')) as (lt & E1 & P1 & K1); auto. { lia. }
    destruct (IH (Nat.modulo (i + 1) dim) rest Lr Hm) as (rt & E2 & P2 & K2).
    rewrite E1; cbn [obind]. rewrite E2; cbn [obind].
    eexists; split; [reflexivity|]. cbn [elements kd_ordered]. split.
    + eapply perm_trans; [exact Pm|]. rewrite Dec. eapply perm_trans; [apply Permutation_sym, Permutation_middle|].
      constructor. apply Permutation_app; assumption.
    + split; [reflexivity|]. split; [|split; [|split; assumption]].
      * intros x X. apply OL. eapply Permutation_in; [apply Permutation_sym; exact P1|exact X].
      * intros x X. apply OR. eapply Permutation_in; [apply Permutation_sym; exact P2|exact X].
Qed.

Lemma KDTree_spec l : l <> [] ->
  exists t, KDTree P dim nth_element l = Ok t /\ Permutation l (elements P t) /\ kd_ordered P coord dim 0 t.
Proof.
  intro N. unfold KDTree. destruct l as [|x l]; [congruence|].
  apply make_spec; auto.
Qed.

(** ** Nearest *)
Lemma sqdist_eq a b : SquaredDistance P coord dim a b == sqdist P coord dim a b.
Proof.
  unfold SquaredDistance. clear. induction dim as [|n IH]; [reflexivity|].
  rewrite seq_S, fold_left_app. simpl. rewrite IH. reflexivity.
Qed.

Lemma sq_nonneg (x : Q) : 0 <= x * x.
Proof. nra. Qed.

Lemma sqdist_ge n a b : forall i, (i < n)%nat -> (coord a i - coord b i) * (coord a i - coord b i) <= sqdist P coord n a b.
Proof.
  assert (NN : forall m, 0 <= sqdist P coord m a b).
  { induction m as [|m IHm]; simpl; [lra|]. pose proof (sq_nonneg (coord a m - coord b m)). lra. }
  induction n as [|n IH]; intros i I; [lia|]. simpl.
  destruct (Nat.eq_dec i n) as [->|Ne].
  - specialize (NN n). lra.
  - assert (i < n)%nat by lia. specialize (IH i H). pose proof (sq_nonneg (coord a n - coord b n)). lra.
Qed.

Notation dist := (SquaredDistance P coord dim).
Notation near := (nearest P coord dim).

Lemma nearest_inv t : forall q i tol best, (i < dim)%nat -> kd_ordered P coord dim i t ->
  (forall p d, best = Some (p, d) -> d = dist p q) ->
  (t = Null /\ near t q i tol best = best) \/
  exists p d, near t q i tol best = Some (p, d) /\ d = dist p q /\
    (best = Some (p, d) \/ In p (elements P t)) /\
    (forall p0 d0, best = Some (p0, d0) -> d <= d0) /\
    (d < tol \/ forall x, In x (elements P t) -> d <= dist x q).
Proof.
  induction t as [|p j l IHl r IHr]; intros q i tol best I K B; [left; split; reflexivity|right].
  cbn [nearest]. destruct K as (-> & KL & KR & Kl & Kr).
  set (best1 := match best with Some (p0, d0) => if Qltb (dist p q) d0 then (p, dist p q) else (p0, d0) | None => (p, dist p q) end).
  assert (B1 : snd best1 = dist (fst best1) q /\ snd best1 <= dist p q /\
               (best = Some best1 \/ fst best1 = p) /\
               (forall p0 d0, best = Some (p0, d0) -> snd best1 <= d0)).
  { unfold best1. destruct best as [[p0 d0]|].
    - specialize (B p0 d0 eq_refl). destruct (Qltb_spec (dist p q) d0); simpl.
      + repeat split; auto; try lra. intros ? ? E; inversion E; subst. lra.
      + repeat split; auto; try lra. intros ? ? E; inversion E; subst. lra.
    - simpl. repeat split; auto; try lra. discriminate. }
  clearbody best1. destruct best1 as [p1 d1]; simpl in B1. destruct B1 as (Hd1 & Hle1 & Hin1 & Hmono1).
  cbn [snd].
  destruct (Qltb_spec d1 tol) as [T|T].
  { exists p1, d1. split; [reflexivity|]. split; [exact Hd1|]. split.
    - destruct Hin1; [left; auto|right; subst; left; reflexivity].
    - split; auto. }
  set (dx := coord p i - coord q i).
  assert (Hm : (Nat.modulo (i + 1) dim < dim)%nat) by (apply Nat.mod_upper_bound; lia).
  assert (B1' : forall p0 d0, Some (p1, d1) = Some (p0, d0) -> d0 = dist p0 q) by (intros ? ? E; inversion E; subst; auto).
  (* generic step over the two children *)
  assert (Step : forall a b : tree P,
    (forall q i tol best, (i < dim)%nat -> kd_ordered P coord dim i a ->
        (forall p d, best = Some (p, d) -> d = dist p q) ->
        (a = Null /\ near a q i tol best = best) \/
        exists p d, near a q i tol best = Some (p, d) /\ d = dist p q /\
          (best = Some (p, d) \/ In p (elements P a)) /\
          (forall p0 d0, best = Some (p0, d0) -> d <= d0) /\
          (d < tol \/ forall x, In x (elements P a) -> d <= dist x q)) ->
    (forall q i tol best, (i < dim)%nat -> kd_ordered P coord dim i b ->
        (forall p d, best = Some (p, d) -> d = dist p q) ->
        (b = Null /\ near b q i tol best = best) \/
        exists p d, near b q i tol best = Some (p, d) /\ d = dist p q /\
          (best = Some (p, d) \/ In p (elements P b)) /\
          (forall p0 d0, best = Some (p0, d0) -> d <= d0) /\
          (d < tol \/ forall x, In x (elements P b) -> d <= dist x q)) ->
    kd_ordered P coord dim (Nat.modulo (i + 1) dim) a -> kd_ordered P coord dim (Nat.modulo (i + 1) dim) b ->
    (forall x, In x (elements P b) -> dx * dx <= dist x q) ->
    exists p2 d2,
      match near a q (Nat.modulo (i + 1) dim) tol (Some (p1, d1)) with
      | None => None
      | Some (p2, d2) => if Qleb d2 (dx * dx) then near a q (Nat.modulo (i + 1) dim) tol (Some (p1, d1))
                         else near b q (Nat.modulo (i + 1) dim) tol (near a q (Nat.modulo (i + 1) dim) tol (Some (p1, d1)))
      end = Some (p2, d2) /\ d2 = dist p2 q /\
      (p2 = p1 /\ d2 = d1 \/ In p2 (elements P a) \/ In p2 (elements P b)) /\ d2 <= d1 /\
      (d2 < tol \/ forall x, In x (elements P a) \/ In x (elements P b) -> d2 <= dist x q)).
  { intros a b IHa IHb Ka Kb Far.
    destruct (IHa q (Nat.modulo (i + 1) dim) tol (Some (p1, d1)) Hm Ka B1') as [[Ea Na]|(p2 & d2 & Na & D2 & In2 & Mo2 & Min2)].
    - rewrite Na. subst a. destruct (Qleb_spec d1 (dx * dx)) as [C|C].
      + exists p1, d1. repeat split; auto; try lra. right. intros x [[]|X]. specialize (Far x X). lra.
      + destruct (IHb q (Nat.modulo (i + 1) dim) tol (Some (p1, d1)) Hm Kb B1') as [[Eb Nb]|(p3 & d3 & Nb & D3 & In3 & Mo3 & Min3)].
        * rewrite Nb. subst b. exists p1, d1. repeat split; auto; try lra. right. intros x [[]|[]].
        * rewrite Nb. exists p3, d3. repeat split; auto.
          -- destruct In3 as [E|E]; [inversion E; subst; auto|auto].
          -- apply (Mo3 p1 d1 eq_refl).
          -- destruct Min3 as [M|M]; [left; exact M|right]. intros x [[]|X]. auto.
    - rewrite Na. specialize (Mo2 p1 d1 eq_refl).
      destruct (Qleb_spec d2 (dx * dx)) as [C|C].
      + exists p2, d2. repeat split; auto.
        * destruct In2 as [E|E]; [inversion E; subst; auto|auto].
        * destruct Min2 as [M|M]; [left; exact M|right]. intros x [X|X]; [auto|]. specialize (Far x X). lra.
      + assert (B2' : forall p0 d0, Some (p2, d2) = Some (p0, d0) -> d0 = dist p0 q) by (intros ? ? E; inversion E; subst; auto).
        destruct (IHb q (Nat.modulo (i + 1) dim) tol (Some (p2, d2)) Hm Kb B2') as [[Eb Nb]|(p3 & d3 & Nb & D3 & In3 & Mo3 & Min3)].
        * rewrite Nb. subst b. exists p2, d2. repeat split; auto.
          -- destruct In2 as [E|E]; [inversion E; subst; auto|auto].
          -- destruct Min2 as [M|M]; [left; exact M|right]. intros x [X|[]]. auto.
        * rewrite Nb. specialize (Mo3 p2 d2 eq_refl). exists p3, d3. repeat split; auto.
          -- destruct In3 as [E|E]; [inversion E; subst; destruct In2 as [E2|E2]; [inversion E2; subst; auto|auto]|auto].
          -- lra.
          -- destruct Min2 as [M|M]; [left; lra|]. destruct Min3 as [M3|M3]; [left; exact M3|right].
             intros x [X|X]; [specialize (M x X); lra|auto]. }
  assert (Res : exists p2 d2,
     (let left_first := Qltb 0 dx in
      match (if left_first then near l q (Nat.modulo (i + 1) dim) tol (Some (p1, d1)) else near r q (Nat.modulo (i + 1) dim) tol (Some (p1, d1))) with
      | None => None
      | Some (p2, d2) =>
        if Qleb d2 (dx * dx) then (if left_first then near l q (Nat.modulo (i + 1) dim) tol (Some (p1, d1)) else near r q (Nat.modulo (i + 1) dim) tol (Some (p1, d1)))
        else if left_first then near r q (Nat.modulo (i + 1) dim) tol (if left_first then near l q (Nat.modulo (i + 1) dim) tol (Some (p1, d1)) else near r q (Nat.modulo (i + 1) dim) tol (Some (p1, d1)))
             else near l q (Nat.modulo (i + 1) dim) tol (if left_first then near l q (Nat.modulo (i + 1) dim) tol (Some (p1, d1)) else near r q (Nat.modulo (i + 1) dim) tol (Some (p1, d1)))
      end) = Some (p2, d2) /\ d2 = dist p2 q /\
      (p2 = p1 /\ d2 = d1 \/ In p2 (elements P l) \/ In p2 (elements P r)) /\ d2 <= d1 /\
      (d2 < tol \/ forall x, In x (elements P l) \/ In x (elements P r) -> d2 <= dist x q)).
  { cbv zeta. destruct (Qltb_spec 0 dx) as [X|X].
    - destruct (Step l r IHl IHr Kl Kr) as (p2 & d2 & S1 & S2 & S3 & S4 & S5).
      + intros x Hx. specialize (KR x Hx). rewrite sqdist_eq. eapply Qle_trans; [|apply (sqdist_ge dim x q i I)].
        unfold dx in *. nra.
      + exists p2, d2. repeat split; auto.
    - destruct (Step r l IHr IHl Kr Kl) as (p2 & d2 & S1 & S2 & S3 & S4 & S5).
      + intros x Hx. specialize (KL x Hx). rewrite sqdist_eq. eapply Qle_trans; [|apply (sqdist_ge dim x q i I)].
        unfold dx in *. nra.
      + exists p2, d2. repeat split; auto; try tauto. destruct S5 as [S5|S5]; [left; exact S5|right].
        intros x Hx; apply S5; tauto. }
  destruct Res as (p2 & d2 & E & D & Hin & Mo & Min).
  exists p2, d2. split; [exact E|]. split; [exact D|]. split; [|split].
  - cbn [elements]. destruct Hin as [[-> ->]|[X|X]].
    + destruct Hin1 as [Y|Y]; [left; exact Y|right; left; auto].
    + right; right; apply in_or_app; auto.
    + right; right; apply in_or_app; auto.
  - intros p0 d0 E0. specialize (Hmono1 p0 d0 E0). lra.
  - destruct Min as [M|M]; [left; exact M|right]. cbn [elements].
    intros x [X|X]; [subst; lra|]. apply in_app_or in X. auto.
Qed.

Lemma nearest_point_spec t q tol : t <> Null -> 0 < tol -> kd_ordered P coord dim 0 t ->
  exists p, nearest_point P coord dim t q tol = Ok p /\ In p (elements P t) /\
    (sqdist P coord dim p q < tol \/
     forall x, In x (elements P t) -> sqdist P coord dim p q <= sqdist P coord dim x q).
Proof.
  intros N T K. unfold nearest_point. destruct t as [|p0 j l r]; [congruence|].
  set (t := Node p0 j l r) in *.
  assert (E : Qltb 0 tol = true) by (apply Qltb_true; exact T). rewrite E. unfold throw_unless.
  destruct (nearest_inv t q 0 tol None Hdim K) as [[C _]|(p & d & -> & D & Hin & _ & Min)]; try discriminate.
  exists p. split; [reflexivity|]. split.
  - destruct Hin as [C|C]; [discriminate|exact C].
  - subst d. rewrite sqdist_eq in Min. destruct Min as [M|M]; [left; exact M|right].
    intros x X. specialize (M x X). pose proof (sqdist_eq x q). pose proof (sqdist_eq p q). lra.
Qed.
End T.

(** ** Regions and range search (dimension 3) *)
Section R.
Variable P : Type.
Variable coord : P -> nat -> Q.

Notation pin := (point_in P coord).

Lemma skeleton_elements t : elements P (skeleton P t) = relements P t.
Proof. induction t as [|p i b l IHl r IHr]; simpl; [reflexivity|]. rewrite IHl, IHr. reflexivity. Qed.

Lemma all_space_wf : box_wf (mk_box all_space_min all_space_max kTolerance).
Proof. unfold box_wf; simpl. repeat split; auto. unfold kTolerance. lra. Qed.

Definition half (left : bool) (pp : P) (i : nat) : box :=
  mk_box (if left then all_space_min else vset all_space_min i (Fin (coord pp i)))
         (if left then vset all_space_max i (Fin (coord pp i)) else all_space_max) kTolerance.

Lemma half_wf left pp i : box_wf (half left pp i).
Proof.
  unfold box_wf, half; simpl. split; [unfold kTolerance; lra|].
  destruct left, i as [|[|i]]; simpl; auto.
Qed.

Lemma half_in (left : bool) pp i x : (i < 3)%nat ->
  (if left then coord x i <= coord pp i else coord pp i <= coord x i) -> pin (half left pp i) x.
Proof.
  intros I H. unfold point_in, in_box, between, half; simpl.
  destruct left, i as [|[|[|i]]]; simpl; try lia; simpl; tauto.
Qed.

Lemma regions_spec t : forall (left : bool) preg pp pi i, box_wf preg -> (pi < 3)%nat -> (i < 3)%nat ->
  kd_ordered P coord 3 i t ->
  (forall x, In x (elements P t) -> pin preg x) ->
  (forall x, In x (elements P t) -> if left then coord x pi <= coord pp pi else coord pp pi <= coord x pi) ->
  exists t', Initialize3dRegions P coord left preg pp pi t = Ok t' /\ skeleton P t' = t /\ regions_cover P coord t' /\
     (forall b p j l r, t' = RNode p j b l r -> box_wf b) .
Proof.
  induction t as [|p j l IHl r IHr]; intros left preg pp pi i W Hpi Hi K Hin Hside.
  - exists RNull; simpl; split; [reflexivity|split; [reflexivity|split; [exact I|intros; discriminate]]].
  - cbn [Initialize3dRegions].
    pose proof (half_wf left pp pi) as HW. unfold half in HW. rewrite (Box_ok _ _ _ HW). cbn [obind].
    fold (half left pp pi).
    destruct (get_intersection_spec preg (half left pp pi) W (half_wf left pp pi)) as (m & E & S).
    rewrite E; cbn [obind].
    destruct m as [reg|].
    2:{ exfalso. apply (S (V3 (Fin (coord p 0%nat)) (Fin (coord p 1%nat)) (Fin (coord p 2%nat)))).
        split; [apply Hin; left; reflexivity|]. apply half_in; auto. exact (Hside p (or_introl eq_refl)). }
    destruct S as (WR & _ & S).
    destruct K as (-> & KL & KR & Kl & Kr).
    assert (Hreg : forall x, In x (elements P (Node p i l r)) -> pin reg x).
    { intros x X. apply S. split; [apply Hin; exact X|]. apply half_in; [exact Hpi|exact (Hside x X)]. }
    assert (Hm : (Nat.modulo (i + 1) 3 < 3)%nat) by (apply Nat.mod_upper_bound; lia).
    destruct (IHl true reg p i _ WR Hi Hm Kl) as (l' & EL & SL & CL & _); auto.
    { intros x X; apply Hreg; simpl; right; apply in_or_app; auto. }
    destruct (IHr false reg p i _ WR Hi Hm Kr) as (r' & ER & SR & CR & _); auto.
    { intros x X; apply Hreg; simpl; right; apply in_or_app; auto. }
    rewrite EL; cbn [obind]. rewrite ER; cbn [obind].
    eexists; split; [reflexivity|]. cbn [skeleton regions_cover relements]. rewrite SL, SR.
    split; [reflexivity|]. split.
    + split; [|split; assumption]. intros x X. apply Hreg. simpl.
      rewrite <- SL, <- SR. rewrite !skeleton_elements. exact X.
    + intros b p' j' l2 r2 EQ; inversion EQ; subst; exact WR.
Qed.

Fixpoint regions_wf (t : rtree P) : Prop :=
  match t with RNull => True | RNode _ _ b l r => box_wf b /\ regions_wf l /\ regions_wf r end.

Lemma regions_wf_init t : forall left preg pp pi t', box_wf preg ->
  Initialize3dRegions P coord left preg pp pi t = Ok t' -> regions_wf t'.
Proof.
  induction t as [|p j l IHl r IHr]; intros left preg pp pi t' W H; cbn [Initialize3dRegions] in H.
  - inversion H; subst; exact I.
  - pose proof (half_wf left pp pi) as HW. unfold half in HW. rewrite (Box_ok _ _ _ HW) in H. cbn [obind] in H.
    fold (half left pp pi) in H.
    destruct (get_intersection_spec preg (half left pp pi) W (half_wf left pp pi)) as (m & E & S).
    rewrite E in H; cbn [obind] in H. destruct m as [reg|]; [|discriminate]. destruct S as (WR & _ & _).
    destruct (Initialize3dRegions P coord true reg p j l) as [l'| |] eqn:EL; cbn [obind] in H; try discriminate.
    destruct (Initialize3dRegions P coord false reg p j r) as [r'| |] eqn:ER; cbn [obind] in H; try discriminate.
    inversion H; subst. simpl. split; [exact WR|]. split; eauto.
Qed.

Lemma init_spec t : t <> Null -> kd_ordered P coord 3 0 t ->
  exists t', InitializeRegions P coord t = Ok t' /\ skeleton P t' = t /\ regions_cover P coord t' /\ regions_wf t'.
Proof.
  intros N K. destruct t as [|p j l r]; [congruence|]. cbn [InitializeRegions].
  rewrite (Box_ok _ _ _ all_space_wf). cbn [obind]. set (reg := mk_box all_space_min all_space_max kTolerance).
  destruct K as (-> & KL & KR & Kl & Kr).
  assert (All : forall x, pin reg x) by (intro x; unfold point_in, in_box, between; simpl; tauto).
  assert (H3 : (0 < 3)%nat) by lia. assert (H1 : (1 < 3)%nat) by lia.
  destruct (regions_spec l true reg p 0%nat _ all_space_wf H3 H1 Kl) as (l' & EL & SL & CL & _); auto.
  destruct (regions_spec r false reg p 0%nat _ all_space_wf H3 H1 Kr) as (r' & ER & SR & CR & _); auto.
  rewrite EL; cbn [obind]; rewrite ER; cbn [obind].
  eexists; split; [reflexivity|]. cbn [skeleton regions_cover regions_wf]. rewrite SL, SR.
  split; [reflexivity|]. split; [split; [|split]; auto|].
  split; [exact all_space_wf|]. split; eapply regions_wf_init; eauto using all_space_wf.
Qed.

Lemma report_elements t : ReportPointsInSubTree t = relements P t.
Proof. induction t as [|p i b l IHl r IHr]; simpl; [reflexivity|]. rewrite IHl, IHr. reflexivity. Qed.

Lemma subseq_refl l : subseq P l l.
Proof. induction l; [apply subseq_nil|apply subseq_take; auto]. Qed.
Lemma subseq_app a b c d : subseq P a b -> subseq P c d -> subseq P (a ++ c) (b ++ d).
Proof.
  intros H K. induction H; simpl.
  - induction l; simpl; auto. apply subseq_skip; auto.
  - apply subseq_skip; auto.
  - apply subseq_take; auto.
Qed.
Lemma subseq_in a b x : subseq P a b -> In x a -> In x b.
Proof. induction 1; simpl; intuition. Qed.

Lemma own_contains reg p x : In x (if BContains reg (to_vec P coord p) then [p] else []) -> in_inflated reg (to_vec P coord x).
Proof.
  destruct (BContains reg (to_vec P coord p)) eqn:E; simpl; intros [] ; [subst|]; try contradiction.
  apply BContains_iff; exact E.
Qed.

Definition inside (reg : box) (p : P) : bool :=
  eleb (vx (bmin reg)) (Fin (coord p 0%nat)) && eleb (Fin (coord p 0%nat)) (vx (bmax reg)) &&
  eleb (vy (bmin reg)) (Fin (coord p 1%nat)) && eleb (Fin (coord p 1%nat)) (vy (bmax reg)) &&
  eleb (vz (bmin reg)) (Fin (coord p 2%nat)) && eleb (Fin (coord p 2%nat)) (vz (bmax reg)).

Lemma inside_iff reg p : inside reg p = true <-> pin reg p.
Proof. unfold inside, point_in, in_box, between; cbn [vx vy vz]. rewrite !andb_true_iff, !eleb_iff. tauto. Qed.

Lemma shift_le a t : 0 <= t -> ele (shift a (- t)) a /\ ele a (shift a t).
Proof. destruct a; simpl; try tauto. intros; split; lra. Qed.

Lemma inside_inflated reg p : box_wf reg -> pin reg p -> in_inflated reg (to_vec P coord p).
Proof.
  intros (T & _) (X & Y & Z). unfold in_inflated, between, vshift; cbn [vx vy vz] in *.
  pose proof (shift_le (vx (bmin reg)) _ T) as [A1 _]. pose proof (shift_le (vx (bmax reg)) _ T) as [_ A2].
  pose proof (shift_le (vy (bmin reg)) _ T) as [B1 _]. pose proof (shift_le (vy (bmax reg)) _ T) as [_ B2].
  pose proof (shift_le (vz (bmin reg)) _ T) as [C1 _]. pose proof (shift_le (vz (bmax reg)) _ T) as [_ C2].
  intuition eauto using ele_trans.
Qed.

Lemma own_filter reg p : box_wf reg ->
  filter (inside reg) (if BContains reg (to_vec P coord p) then [p] else []) = filter (inside reg) [p].
Proof.
  intro W. destruct (BContains reg (to_vec P coord p)) eqn:E; [reflexivity|].
  simpl. destruct (inside reg p) eqn:F; [|reflexivity].
  apply inside_iff in F. apply (inside_inflated reg p W) in F. apply BContains_iff in F. congruence.
Qed.

Lemma filter_none (f : P -> bool) l : (forall x, In x l -> f x = false) -> filter f l = [].
Proof.
  induction l as [|a l IH]; simpl; intro H; [reflexivity|].
  rewrite (H a (or_introl eq_refl)). apply IH; auto.
Qed.

Lemma filter_app' (f : P -> bool) a b : filter f (a ++ b) = filter f a ++ filter f b.
Proof. apply filter_app. Qed.

Lemma range_search_spec reg t : box_wf reg -> regions_cover P coord t -> regions_wf t ->
  subseq P (RangeSearch P coord reg t) (relements P t) /\
  (forall x, In x (RangeSearch P coord reg t) -> in_inflated reg (to_vec P coord x)) /\
  filter (inside reg) (RangeSearch P coord reg t) = filter (inside reg) (relements P t).
Proof.
  intros W. induction t as [|p j b l IHl r IHr]; intros C WF.
  - simpl. split; [apply subseq_nil|]. split; [tauto|reflexivity].
  - destruct C as (Cb & Cl & Cr). destruct WF as (Wb & Wl & Wr).
    destruct (IHl Cl Wl) as (L1 & L2 & L3). destruct (IHr Cr Wr) as (R1 & R2 & R3). clear IHl IHr.
    cbn [RangeSearch].
    set (own := if BContains reg (to_vec P coord p) then [p] else []).
    assert (O1 : subseq P own [p]).
    { unfold own. destruct (BContains _ _); [apply subseq_refl|apply subseq_nil]. }
    assert (O2 : forall x, In x own -> in_inflated reg (to_vec P coord x)) by (intros x X; eapply own_contains; exact X).
    assert (O3 : filter (inside reg) own = filter (inside reg) [p]) by (apply own_filter; exact W).
    set (body := match Overlaps reg b with
       | kContained => ReportPointsInSubTree (RNode p j b l r)
       | kIntersected => own ++ RangeSearch P coord reg l ++ RangeSearch P coord reg r
       | kDisjointed => []
       end).
    assert (Body : subseq P body (relements P (RNode p j b l r)) /\
        (forall x, In x body -> in_inflated reg (to_vec P coord x)) /\
        filter (inside reg) body = filter (inside reg) (relements P (RNode p j b l r))).
    { unfold body. destruct (overlaps_spec reg b W Wb) as (D & Ct & It).
      destruct (Overlaps reg b) eqn:O.
      - split; [apply subseq_nil|]. split; [simpl; tauto|]. symmetry. apply filter_none.
        intros x X. destruct (inside reg x) eqn:F; [|reflexivity]. exfalso.
        apply (proj1 D eq_refl). eexists; split; [apply inside_iff in F; exact F|]. apply Cb; exact X.
      - split; [|split].
        + change (relements P (RNode p j b l r)) with ([p] ++ (relements P l ++ relements P r)).
          apply subseq_app; [exact O1|]. apply subseq_app; assumption.
        + intros x X. apply in_app_or in X. destruct X as [X|X]; [auto|]. apply in_app_or in X. destruct X; auto.
        + change (relements P (RNode p j b l r)) with ([p] ++ (relements P l ++ relements P r)).
          rewrite !filter_app', O3, L3, R3. reflexivity.
      - rewrite report_elements. split; [apply subseq_refl|]. split; [|reflexivity].
        intros x X. apply (proj2 (proj1 Ct eq_refl)). apply Cb. exact X. }
    destruct l as [|lp lj lb ll lr]; [destruct r as [|rp rj rb rl rr]|]; try exact Body.
    simpl relements. split; [exact O1|]. split; [exact O2|]. exact O3.
Qed.
End R.

(** ** Closed forms *)
Section Closed.
Variable P : Type.
Variable coord : P -> nat -> Q.
Variable nth_element : nat -> nat -> list P -> list P.
Hypothesis Hnth : nth_element_ok P coord nth_element.

Lemma KDTree3D_spec l : l <> [] ->
  exists t, KDTree3D P coord 3 nth_element l = Ok t /\ Permutation l (relements P t) /\
    kd_ordered P coord 3 0 (skeleton P t) /\ regions_cover P coord t /\ regions_wf P t.
Proof.
  intro N. assert (H3 : (0 < 3)%nat) by lia.
  destruct (KDTree_spec P coord 3 H3 nth_element Hnth l N) as (t & E & Pm & K).
  unfold KDTree3D. rewrite E; cbn [obind].
  assert (t <> Null).
  { intro Z; subst t. apply Permutation_sym, Permutation_nil in Pm. congruence. }
  destruct (init_spec P coord t H K) as (t' & -> & S & C & W).
  exists t'. split; [reflexivity|]. rewrite S. split; [|auto].
  rewrite <- skeleton_elements, S. exact Pm.
Qed.

Lemma KDTree3D_range_search l reg : l <> [] -> box_wf reg ->
  exists t, KDTree3D P coord 3 nth_element l = Ok t /\ Permutation l (relements P t) /\
    subseq P (RangeSearch P coord reg t) (relements P t) /\
    (forall x, In x (RangeSearch P coord reg t) -> in_inflated reg (to_vec P coord x)) /\
    (forall f, (forall x, f x = true -> point_in P coord reg x) ->
       filter f (RangeSearch P coord reg t) = filter f (relements P t)).
Proof.
  intros N W. destruct (KDTree3D_spec l N) as (t & E & Pm & K & C & WF).
  exists t. split; [exact E|]. split; [exact Pm|].
  destruct (range_search_spec P coord reg t W C WF) as (A & B & D).
  split; [exact A|]. split; [exact B|].
  intros f Hf.
  assert (R : forall l, filter f (filter (inside P coord reg) l) = filter f l).
  { induction l0 as [|x l0 IH]; [reflexivity|]. simpl. destruct (inside P coord reg x) eqn:I.
    - simpl. rewrite IH. reflexivity.
    - rewrite IH. destruct (f x) eqn:F; [|reflexivity]. apply Hf in F. apply inside_iff in F. congruence. }
  rewrite <- (R (RangeSearch P coord reg t)), D, R. reflexivity.
Qed.

Lemma KDTree3D_range_search_mem l reg : l <> [] -> box_wf reg ->
  exists t, KDTree3D P coord 3 nth_element l = Ok t /\
    forall x, In x l -> point_in P coord reg x -> In x (RangeSearch P coord reg t).
Proof.
  intros N W. destruct (KDTree3D_spec l N) as (t & E & Pm & K & C & WF).
  exists t. split; [exact E|]. intros x X Hx.
  destruct (range_search_spec P coord reg t W C WF) as (A & B & D).
  assert (I : In x (filter (inside P coord reg) (relements P t))).
  { apply filter_In. split; [eapply Permutation_in; eauto|]. apply inside_iff; exact Hx. }
  rewrite <- D in I. apply filter_In in I. tauto.
Qed.
End Closed.

(** nearest_point on a freshly built tree of any dimension. *)
Lemma KDTree_nearest P coord dim nth_element l q tol :
  (0 < dim)%nat -> nth_element_ok P coord nth_element -> l <> [] -> 0 < tol ->
  exists t p, KDTree P dim nth_element l = Ok t /\ nearest_point P coord dim t q tol = Ok p /\ In p l /\
    (sqdist P coord dim p q < tol \/ forall x, In x l -> sqdist P coord dim p q <= sqdist P coord dim x q).
Proof.
  intros D Hn N T. destruct (KDTree_spec P coord dim D nth_element Hn l N) as (t & E & Pm & K).
  assert (t <> Null).
  { intro Z; subst t. apply Permutation_sym, Permutation_nil in Pm. congruence. }
  destruct (nearest_point_spec P coord dim D t q tol H T K) as (p & En & I & M).
  exists t, p. split; [exact E|]. split; [exact En|].
  split; [eapply Permutation_in; [apply Permutation_sym|]; eauto|].
  destruct M as [M|M]; [left; exact M|right]. intros x X. apply M. eapply Permutation_in; eauto.
Qed.

Lemma nearest_point_bad_tolerance P coord dim p j l r q tol : tol <= 0 ->
  nearest_point P coord dim (Node p j l r) q tol = Throw.
Proof. intro T. unfold nearest_point, throw_unless. qcases; [lra|reflexivity]. Qed.

Lemma KDTree_empty_throws P coord dim nth_element : KDTree P dim nth_element [] = Throw /\ KDTree3D P coord dim nth_element [] = Throw.
Proof. split; reflexivity. Qed.

(** ** A concrete nth_element (full insertion sort) *)
Section Sort.
Variable P : Type.
Variable coord : P -> nat -> Q.
Fixpoint insert (i : nat) (x : P) (l : list P) : list P :=
  match l with
  | [] => [x]
  | y :: l' => if Qleb (coord x i) (coord y i) then x :: l else y :: insert i x l'
  end.
Definition isort (i k : nat) (l : list P) : list P := fold_right (insert i) [] l.

Lemma insert_perm i x l : Permutation (x :: l) (insert i x l).
Proof.
  induction l as [|y l IH]; simpl; [reflexivity|]. destruct (Qleb _ _); [reflexivity|].
  eapply perm_trans; [apply perm_swap|]. constructor. exact IH.
Qed.
Lemma isort_perm i k l : Permutation l (isort i k l).
Proof.
  induction l as [|x l IH]; simpl; [reflexivity|].
  eapply perm_trans; [|apply insert_perm]. constructor. exact IH.
Qed.
Fixpoint sorted (i : nat) (l : list P) : Prop :=
  match l with [] => True | x :: l' => (forall y, In y l' -> coord x i <= coord y i) /\ sorted i l' end.
Lemma insert_sorted i x l : sorted i l -> sorted i (insert i x l).
Proof.
  induction l as [|y l IH]; simpl; [tauto|]. intros [H S]. destruct (Qleb_spec (coord x i) (coord y i)) as [L|L]; simpl.
  - split; [|tauto]. intros z [Z|Z]; [subst; exact L|]. specialize (H z Z). lra.
  - split; [|apply IH; exact S]. intros z Z. apply (Permutation_in _ (Permutation_sym (insert_perm i x l))) in Z.
    destruct Z as [Z|Z]; [subst; lra|auto].
Qed.
Lemma isort_sorted i k l : sorted i (isort i k l).
Proof. induction l as [|x l IH]; simpl; [exact I|]. apply insert_sorted. exact IH. Qed.
Lemma sorted_app i a p b : sorted i (a ++ p :: b) ->
  (forall x, In x a -> coord x i <= coord p i) /\ (forall x, In x b -> coord p i <= coord x i).
Proof.
  induction a as [|y a IH]; simpl; intros [H S]; [split; [tauto|exact H]|].
  destruct (IH S) as [A B]. split; [|exact B]. intros x [X|X]; [subst; apply H; apply in_or_app; right; left; reflexivity|auto].
Qed.
Lemma isort_ok : nth_element_ok P coord isort.
Proof.
  intros i k l K. split; [apply isort_perm|]. intros a p b E L. apply sorted_app. rewrite <- E. apply isort_sorted.
Qed.
End Sort.

(** Points as triples, used in the examples. *)
Definition pt : Type := (Q * Q * Q)%type.
Definition pcoord (p : pt) (i : nat) : Q :=
  match p, i with (x, _, _), O => x | (_, y, _), 1%nat => y | (_, _, z), _ => z end.

Definition band_points : list pt :=
  [(0,0,0); (0,1,0); (0,2,0); (0,3,0); (5,0,0); (5,1,0); (5,2,0)].
(** box whose lower x face is half the tolerance above 0 *)
Definition band_box : box := mk_box (V3 (Fin (1#20)) (Fin 0) (Fin 0)) (V3 (Fin 9) (Fin 9) (Fin 9)) (1#10).

Lemma range_search_band_refuted :
  exists l reg t x, l <> [] /\ box_wf reg /\ KDTree3D pt pcoord 3 (isort pt pcoord) l = Ok t /\
    In x l /\ BContains reg (to_vec pt pcoord x) = true /\ ~ In x (RangeSearch pt pcoord reg t).
Proof.
  exists band_points, band_box.
  destruct (KDTree3D pt pcoord 3 (isort pt pcoord) band_points) as [t| |] eqn:E; [|vm_compute in E; discriminate|vm_compute in E; discriminate].
  exists t, (0,1,0). split; [discriminate|]. split; [unfold box_wf, band_box; simpl; lra|].
  split; [reflexivity|]. split; [simpl; tauto|]. split; [vm_compute; reflexivity|].
  assert (S : RangeSearch pt pcoord band_box t = match KDTree3D pt pcoord 3 (isort pt pcoord) band_points with Ok t => RangeSearch pt pcoord band_box t | _ => [] end)
    by (rewrite E; reflexivity).
  rewrite S. vm_compute. intuition discriminate.
Qed.
