(** Proofs for C104. *)
From Coq Require Import List Permutation ZArith QArith Lia Bool.
From Coq Require Import Floats.SpecFloat.
From Verif Require Import Base Binary64 Binary64_Round Binary64_Order Binary64_Ext KdTree_Model KdTree_Spec KdTree_Proofs KdFloat_Model KdFloat_Spec.
Import ListNotations.
Local Open Scope Z_scope.

Section T.
Variable P : Type.
Variable coord : P -> nat -> double.
Variable dim : nat.

Notation dist := (fSquaredDistance P coord dim).
Notation near := (fnearest P coord dim).
Definition coordQ (p : P) (i : nat) : Q := inject_Z (val (coord p i)).
Notation ordered := (kd_ordered P coordQ dim).

Lemma dist_rounded a b : dist a b = rounded_sq P coord dim a b.
Proof. unfold fSquaredDistance. clear. induction dim as [|n IH]; [reflexivity|]. rewrite seq_S, fold_left_app. cbn [fold_left rounded_sq Nat.add]. rewrite IH. reflexivity. Qed.

Lemma zero_number : number fzero /\ place fzero = 0.
Proof. split; [split; [reflexivity|discriminate]|reflexivity]. Qed.
Lemma rounded_ok n a b : finite_point P coord n a -> finite_point P coord n b ->
  number (rounded_sq P coord n a b) /\ 0 <= place (rounded_sq P coord n a b) /\
  forall i, (i < n)%nat -> place (fsq (coord a i) (coord b i)) <= place (rounded_sq P coord n a b).
Proof.
  induction n as [|n IH]; intros A B; [destruct zero_number as [N E]; cbn [rounded_sq]; rewrite E; repeat split; try apply N; lia|].
  destruct IH as (N & G & L); [intros i I; apply A; lia|intros i I; apply B; lia|]. cbn [rounded_sq]. fold (fsq (coord a n) (coord b n)).
  destruct (fsq_place (coord a n) (coord b n) (A n ltac:(lia)) (B n ltac:(lia))) as (N2 & _ & G2).
  destruct (fadd_up _ _ N N2 G G2) as (N3 & L1 & L2). split; [exact N3|]. split; [lia|]. intros i I.
  destruct (Nat.eq_dec i n) as [->|Ne]; [exact L2|]. specialize (L i ltac:(lia)). lia.
Qed.

Definition fin (p : P) : Prop := finite_point P coord dim p.
Lemma dist_number a b : fin a -> fin b -> number (dist a b).
Proof. intros A B. rewrite dist_rounded. apply rounded_ok; assumption. Qed.

Hypothesis Hdim : (0 < dim)%nat.
Definition best_ok (q : P) (best : option (P * double)) : Prop := match best with None => True | Some (p, d) => fin p /\ d = dist p q end.
Definition good (q : P) (tol : double) (best : option (P * double)) (els : list P) (r : option (P * double)) : Prop :=
  exists p d, r = Some (p, d) /\ fin p /\ d = dist p q /\ (best = Some (p, d) \/ In p els) /\
    (forall p0 d0, best = Some (p0, d0) -> place d <= place d0) /\
    (flt d tol = true \/ forall x, In x els -> place d <= place (dist x q)).

Lemma nearest_good t : forall q i tol best, number tol -> fin q -> (i < dim)%nat -> (forall x, In x (elements P t) -> fin x) -> ordered i t -> best_ok q best ->
  (t = Null /\ near t q i tol best = best) \/ good q tol best (elements P t) (near t q i tol best).
Proof.
  induction t as [|p j l IHl r IHr]; intros q i tol best NT FQ I FE K B; [left; split; reflexivity|right].
  cbn [fnearest]. destruct K as (-> & KL & KR & Kl & Kr). pose proof (FE p (or_introl eq_refl)) as FP.
  assert (FL : forall x, In x (elements P l) -> fin x) by (intros x X; apply FE; right; apply in_or_app; auto).
  assert (FR : forall x, In x (elements P r) -> fin x) by (intros x X; apply FE; right; apply in_or_app; auto).
  set (best1 := match best with Some (p0, d0) => if flt (dist p q) d0 then (p, dist p q) else (p0, d0) | None => (p, dist p q) end).
  assert (B1 : fin (fst best1) /\ snd best1 = dist (fst best1) q /\ place (snd best1) <= place (dist p q) /\ (best = Some best1 \/ fst best1 = p) /\ (forall p0 d0, best = Some (p0, d0) -> place (snd best1) <= place d0)).
  { unfold best1. destruct best as [[p0 d0]|]; cbn [best_ok] in B.
    - destruct B as [F0 ->]. pose proof (flt_place (dist p q) (dist p0 q) (dist_number _ _ FP FQ) (dist_number _ _ F0 FQ)) as Q.
      destruct (flt (dist p q) (dist p0 q)) eqn:E; cbn [fst snd].
      + pose proof (proj1 Q eq_refl). (split; [assumption|split; [reflexivity|split; [lia|split; [auto|intros ? ? E0; injection E0 as <- <-; lia]]]]).
      + assert (~ place (dist p q) < place (dist p0 q)) by (intros C; apply Q in C; discriminate). (split; [assumption|split; [reflexivity|split; [lia|split; [auto|intros ? ? E0; injection E0 as <- <-; lia]]]]).
    - cbn [fst snd]. split; [assumption|split; [reflexivity|split; [lia|split; [auto|discriminate]]]]. }
  clearbody best1. destruct best1 as [p1 d1]; cbn [fst snd] in *. destruct B1 as (F1 & Hd1 & Hle1 & Hin1 & Hmono1).
  destruct (flt d1 tol) eqn:T.
  { exists p1, d1. split; [reflexivity|]. split; [exact F1|]. split; [exact Hd1|]. split; [destruct Hin1 as [Y|Y]; [left; exact Y|right; left; auto]|]. split; [exact Hmono1|left; exact T]. }
  pose proof (FP i I) as Dp. pose proof (FQ i I) as Dq. set (dx := fsub (coord p i) (coord q i)).
  assert (Hm : (Nat.modulo (i + 1) dim < dim)%nat) by (apply Nat.mod_upper_bound; lia).
  assert (ND : forall x, fin x -> number (dist x q)) by (intros x X; apply dist_number; assumption).
  assert (NX : number (fmul dx dx)) by apply (fsq_place _ _ Dp Dq).
  assert (Step : forall a b : tree P,
    (forall q i tol best, number tol -> fin q -> (i < dim)%nat -> (forall x, In x (elements P a) -> fin x) -> ordered i a -> best_ok q best -> (a = Null /\ near a q i tol best = best) \/ good q tol best (elements P a) (near a q i tol best)) ->
    (forall q i tol best, number tol -> fin q -> (i < dim)%nat -> (forall x, In x (elements P b) -> fin x) -> ordered i b -> best_ok q best -> (b = Null /\ near b q i tol best = best) \/ good q tol best (elements P b) (near b q i tol best)) ->
    (forall x, In x (elements P a) -> fin x) -> (forall x, In x (elements P b) -> fin x) ->
    ordered (Nat.modulo (i + 1) dim) a -> ordered (Nat.modulo (i + 1) dim) b ->
    (forall x, In x (elements P b) -> place (fmul dx dx) <= place (dist x q)) ->
    good q tol (Some (p1, d1)) (elements P a ++ elements P b)
      match near a q (Nat.modulo (i + 1) dim) tol (Some (p1, d1)) with
      | None => None
      | Some (p2, d2) => if fle d2 (fmul dx dx) then near a q (Nat.modulo (i + 1) dim) tol (Some (p1, d1))
                         else near b q (Nat.modulo (i + 1) dim) tol (near a q (Nat.modulo (i + 1) dim) tol (Some (p1, d1)))
      end).
  { intros a b IHa IHb Fa Fb Ka Kb Far.
    assert (A : good q tol (Some (p1, d1)) (elements P a) (near a q (Nat.modulo (i + 1) dim) tol (Some (p1, d1)))).
    { destruct (IHa q (Nat.modulo (i + 1) dim) tol (Some (p1, d1)) NT FQ Hm Fa Ka (conj F1 Hd1)) as [[-> ->]|G]; [|exact G].
      exists p1, d1. split; [reflexivity|split; [assumption|split; [assumption|split; [auto|split; [intros ? ? E; injection E as <- <-; lia|right; intros x []]]]]]. }
    destruct A as (p2 & d2 & -> & F2 & D2 & In2 & Mo2 & Min2). specialize (Mo2 p1 d1 eq_refl).
    pose proof (ND p2 F2) as N2. rewrite <- D2 in N2. pose proof (fle_place d2 (fmul dx dx) N2 NX) as LE. destruct (fle d2 (fmul dx dx)).
    - pose proof (proj1 LE eq_refl). exists p2, d2. split; [reflexivity|]. split; [exact F2|]. split; [exact D2|]. split; [destruct In2; [left; assumption|right; apply in_or_app; auto]|]. split; [intros ? ? E; injection E as <- <-; lia|].
      destruct Min2 as [M|M]; [left; exact M|right]. intros x X. apply in_app_or in X. destruct X as [X|X]; [auto|]. specialize (Far x X). lia.
    - assert (A : good q tol (Some (p2, d2)) (elements P b) (near b q (Nat.modulo (i + 1) dim) tol (Some (p2, d2)))).
      { destruct (IHb q (Nat.modulo (i + 1) dim) tol (Some (p2, d2)) NT FQ Hm Fb Kb (conj F2 D2)) as [[-> ->]|G]; [|exact G].
        exists p2, d2. split; [reflexivity|split; [assumption|split; [assumption|split; [auto|split; [intros ? ? E; injection E as <- <-; lia|right; intros x []]]]]]. }
      destruct A as (p3 & d3 & -> & F3 & D3 & In3 & Mo3 & Min3). specialize (Mo3 p2 d2 eq_refl). pose proof (ND p3 F3) as N3. rewrite <- D3 in N3.
      exists p3, d3. split; [reflexivity|]. split; [exact F3|]. split; [exact D3|]. split; [|split; [intros ? ? E; injection E as <- <-; lia|]].
      + destruct In3 as [E|E]; [injection E as <- <-; destruct In2 as [E|E]; [left; exact E|right; apply in_or_app; auto]|right; apply in_or_app; auto].
      + destruct Min2 as [M|M]; [left; apply flt_place in M; [apply flt_place; [assumption|assumption|lia]|assumption|assumption]|].
        destruct Min3 as [M3|M3]; [left; exact M3|right]. intros x X. apply in_app_or in X. destruct X as [X|X]; [specialize (M x X); lia|auto]. }
  assert (Far : forall x, fin x -> (val (coord q i) < val (coord p i) <= val (coord x i) \/ val (coord x i) <= val (coord p i) <= val (coord q i)) -> place (fmul dx dx) <= place (dist x q)).
  { intros x X O. change (fmul dx dx) with (fsq (coord p i) (coord q i)). rewrite dist_rounded. destruct (rounded_ok dim x q X FQ) as (_ & _ & L). specialize (L i I).
    pose proof (fsq_mono _ _ _ _ Dp Dq (X i I) Dq) as M. assert (place (fsq (coord p i) (coord q i)) <= place (fsq (coord x i) (coord q i))) by (apply M; lia). lia. }
  assert (Res : exists els, (forall x, In x els <-> In x (elements P l ++ elements P r)) /\ good q tol (Some (p1, d1)) els
     (match (if flt fzero dx then near l q (Nat.modulo (i + 1) dim) tol (Some (p1, d1)) else near r q (Nat.modulo (i + 1) dim) tol (Some (p1, d1))) with
      | None => None
      | Some (p2, d2) =>
        if fle d2 (fmul dx dx) then (if flt fzero dx then near l q (Nat.modulo (i + 1) dim) tol (Some (p1, d1)) else near r q (Nat.modulo (i + 1) dim) tol (Some (p1, d1)))
        else if flt fzero dx then near r q (Nat.modulo (i + 1) dim) tol (if flt fzero dx then near l q (Nat.modulo (i + 1) dim) tol (Some (p1, d1)) else near r q (Nat.modulo (i + 1) dim) tol (Some (p1, d1)))
             else near l q (Nat.modulo (i + 1) dim) tol (if flt fzero dx then near l q (Nat.modulo (i + 1) dim) tol (Some (p1, d1)) else near r q (Nat.modulo (i + 1) dim) tol (Some (p1, d1)))
      end)).
  { assert (S0 : flt fzero dx = true <-> val (coord q i) < val (coord p i)).
    { destruct (result_place _ _ (fsub_spec _ _ Dp Dq)) as [Nx Px]. fold dx in Nx, Px. destruct zero_number as [N0 P0]. rewrite flt_place by assumption. rewrite P0, Px. pose proof top_pos. pose proof (rnd_pos (val (coord p i) - val (coord q i))). unfold cap. lia. }
    destruct (flt fzero dx).
    - exists (elements P l ++ elements P r). split; [reflexivity|]. apply (Step l r IHl IHr FL FR Kl Kr).
      intros x X. apply Far; [auto|]. specialize (KR x X). unfold coordQ in KR. rewrite <- Zle_Qle in KR. left. pose proof (proj1 S0 eq_refl). lia.
    - exists (elements P r ++ elements P l). split; [intros x; rewrite !in_app_iff; tauto|]. apply (Step r l IHr IHl FR FL Kr Kl).
      intros x X. apply Far; [auto|]. specialize (KL x X). unfold coordQ in KL. rewrite <- Zle_Qle in KL. right. assert (~ val (coord q i) < val (coord p i)) by (intros C; apply S0 in C; discriminate). lia. }
  cbv zeta. destruct Res as (els & Els & p2 & d2 & E & F2 & D & Hin & Mo & Min). specialize (Mo p1 d1 eq_refl).
  exists p2, d2. split; [exact E|]. split; [exact F2|]. split; [exact D|]. split; [|split].
  - cbn [elements]. destruct Hin as [E2|X]; [injection E2 as <- <-; destruct Hin1 as [Y|Y]; [left; exact Y|right; left; auto]|]. right; right. apply Els, X.
  - intros p0 d0 E0. specialize (Hmono1 p0 d0 E0). lia.
  - destruct Min as [M|M]; [left; exact M|right]. cbn [elements]. intros x [X|X]; [subst; lia|]. apply M, Els, X.
Qed.

Lemma nth_finite_ok ne : nth_element_finite P coord ne -> nth_element_ok P coordQ ne.
Proof.
  intros H i k l K. destruct (H i k l K) as [Pm O]. split; [exact Pm|]. intros a p b E L. destruct (O a p b E L) as [X Y]. unfold coordQ.
  split; intros x Hx; rewrite <- Zle_Qle; auto.
Qed.
Lemma nearest_rounded ne l q tol : nth_element_finite P coord ne -> l <> [] -> (forall x, In x l -> fin x) -> fin q -> number tol -> 0 < place tol ->
  exists t p, KDTree P dim ne l = Ok t /\ fnearest_point P coord dim t q tol = Ok p /\ In p l /\
    (flt (rounded_sq P coord dim p q) tol = true \/ forall x, In x l -> fle (rounded_sq P coord dim p q) (rounded_sq P coord dim x q) = true).
Proof.
  intros Hn N F FQ NT T. destruct (KDTree_spec P coordQ dim Hdim ne (nth_finite_ok ne Hn) l N) as (t & E & Pm & K).
  assert (NE : t <> Null) by (intros ->; apply Permutation_sym, Permutation_nil in Pm; congruence).
  assert (FE : forall x, In x (elements P t) -> fin x) by (intros x X; apply F; eapply Permutation_in; [apply Permutation_sym, Pm|exact X]).
  destruct (nearest_good t q 0 tol None NT FQ Hdim FE K I) as [[C _]|(p & d & R & FP & D & Hin & _ & Min)]; [congruence|].
  exists t, p. split; [exact E|]. split.
  - unfold fnearest_point. destruct t as [|p0 j a b]; [congruence|]. destruct zero_number as [N0 P0]. assert (Z0 : flt fzero tol = true) by (apply flt_place; [assumption|assumption|lia]). rewrite Z0. unfold throw_unless. rewrite R. reflexivity.
  - destruct Hin as [C|C]; [discriminate|]. split; [eapply Permutation_in; [apply Permutation_sym, Pm|exact C]|]. rewrite <- !dist_rounded, <- D. destruct Min as [M|M]; [left; exact M|right].
    intros x X. pose proof (Permutation_in x Pm X) as X'. rewrite <- dist_rounded. subst d. apply fle_place; [apply dist_number; assumption|apply dist_number; [apply FE, X'|assumption]|apply M, X'].
Qed.
End T.
