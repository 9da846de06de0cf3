From Coq Require Import List QArith Qabs Bool Arith Lqa Lia.
From Verif Require Import Base Regions_Model Regions_Spec.
Import ListNotations.
Open Scope Q_scope.

(** lower and upper ends *)
Lemma ends (r : srange) : exists lo hi, lo <= hi /\ cmin (s0 r) (s1 r) == lo /\ cmax (s0 r) (s1 r) == hi
   /\ size r == hi - lo /\ (forall x, In_range x r <-> lo <= x /\ x <= hi)
   /\ ((s0 r == lo /\ s1 r == hi) \/ (s0 r == hi /\ s1 r == lo)).
Proof.
  unfold cmin, cmax, size, In_range. destruct r as [a b]; cbn [s0 s1].
  destruct (Qlt_le_dec a b) as [H|H].
  - assert (Qabs (b - a) == b - a) by (apply Qabs_pos; lra).
    exists a, b. qcases; try lra.
    split; [lra|]. split; [lra|]. split; [lra|]. split; [lra|]. split; [|lra].
    intro x; split; intros; lra.
  - assert (Qabs (b - a) == a - b) by (setoid_replace (a - b) with (- (b - a)) by lra; apply Qabs_neg; lra).
    exists b, a. qcases; try lra;
    (split; [lra|]; split; [lra|]; split; [lra|]; split; [lra|]; split; [|lra];
    intro x; split; intros; lra).
Qed.

Ltac flat :=
  repeat match goal with
  | H : exists _, _ |- _ => destruct H
  | H : _ /\ _ |- _ => destruct H
  end.

Definition pre (r o : srange) (tol : Q) : Prop := tol < 0 -> size r / 2 >= - tol /\ size o / 2 >= - tol.

Lemma half x y : x / 2 >= y <-> x >= 2 * y.
Proof. assert (x / 2 == (1#2) * x) by (unfold Qdiv; field). split; lra. Qed.

Lemma range_pre_spec r o tol : valid r -> valid o -> BoolSpec (pre r o tol) (~ pre r o tol) (range_pre r o tol).
Proof.
  intros Hr Ho. unfold range_pre, pre.
  destruct (ends r) as (lr & hr & E1 & E2 & E3 & E4 & _ & E6).
  destruct (ends o) as (l2 & h2 & F1 & F2 & F3 & F4 & _ & F6).
  unfold valid in *.
  assert (A : Qleb 0 (cmin (s0 r) (s1 r)) = true) by (apply Qleb_true; lra).
  assert (B : Qleb 0 (cmin (s0 o) (s1 o)) = true) by (apply Qleb_true; lra).
  rewrite A, B. simpl.
  destruct (Qltb_spec tol 0) as [Ht|Ht].
  - assert (Ha : Qabs tol == - tol) by (apply Qabs_neg; lra).
    assert (Hm : cmin (size r) (size o) <= size r /\ cmin (size r) (size o) <= size o
        /\ (cmin (size r) (size o) == size r \/ cmin (size r) (size o) == size o)).
    { unfold cmin; qcases; repeat split; lra. }
    destruct (Qleb_spec (Qabs tol) (cmin (size r) (size o) / 2)) as [H|H]; constructor.
    + intros _. apply half in H. rewrite !half. lra.
    + intro K. specialize (K Ht). rewrite !half in K. apply Qlt_not_le in H. apply H. apply half. lra.
  - constructor. intro; lra.
Qed.

Lemma wider_ok r o tol : valid r -> pre r o tol ->
  exists w, wider r tol = Ok w /\ s0 w = cmax (cmin (s0 r) (s1 r) - tol) 0 /\ s1 w = cmax (s0 r) (s1 r) + tol.
Proof.
  intros Hr Hp. unfold wider, SRange.
  destruct (ends r) as (lr & hr & E1 & E2 & E3 & E4 & _ & E6).
  assert (A : Qleb 0 (cmax (cmin (s0 r) (s1 r) - tol) 0) = true).
  { apply Qleb_true. apply cmax_r. }
  rewrite A; simpl.
  assert (B : Qleb 0 (cmax (s0 r) (s1 r) + tol) = true).
  { apply Qleb_true. unfold valid in Hr. unfold pre in Hp.
    destruct (Qlt_le_dec tol 0) as [K|K].
    - specialize (Hp K). rewrite !half in Hp. lra.
    - lra. }
  rewrite B; simpl. eexists. repeat split.
Qed.

(** Core characterisation by ends. *)
Lemma intersects_ends r o tol : valid r -> valid o -> pre r o tol ->
  exists b, Intersects r o tol = Ok b /\
   (b = true <-> cmin (s0 r) (s1 r) - tol <= cmax (s0 o) (s1 o)
               /\ cmin (s0 o) (s1 o) <= cmax (s0 r) (s1 r) + tol).
Proof.
  intros Hr Ho Hp. unfold Intersects.
  destruct (range_pre_spec r o tol Hr Ho) as [_|N]; [|contradiction]. simpl.
  destruct (wider_ok r o tol Hr Hp) as (w & -> & W0 & W1). simpl.
  eexists; split; [reflexivity|].
  rewrite W0, W1.
  destruct (ends o) as (l2 & h2 & F1 & F2 & F3 & F4 & _ & F6).
  unfold valid in *.
  rewrite negb_true_iff, orb_false_iff, !Qltb_false.
  split; intros [A B]; split; try lra.
  - pose proof (cmax_l (cmin (s0 r) (s1 r) - tol) 0). lra.
  - destruct (cmax_cases (cmin (s0 r) (s1 r) - tol) 0); lra.
Qed.

Lemma intersects_throw r o tol : valid r -> valid o -> ~ pre r o tol -> Intersects r o tol = Throw.
Proof.
  intros Hr Ho Hp. unfold Intersects.
  destruct (range_pre_spec r o tol Hr Ho) as [Y|N]; [contradiction|]. reflexivity.
Qed.

Lemma Qabs_le x t : Qabs x <= t <-> - t <= x /\ x <= t.
Proof. apply Qabs_Qle_condition. Qed.

Lemma intersects_pos r o tol : valid r -> valid o -> 0 <= tol ->
  exists b, Intersects r o tol = Ok b /\ (b = true <-> near tol r o).
Proof.
  intros Hr Ho Ht.
  destruct (intersects_ends r o tol Hr Ho) as (b & Hb & Hi). { intro; lra. }
  exists b; split; [exact Hb|]. rewrite Hi; clear Hi Hb.
  destruct (ends r) as (lr & hr & E1 & E2 & E3 & E4 & E5 & E6).
  destruct (ends o) as (l2 & h2 & F1 & F2 & F3 & F4 & F5 & F6).
  unfold near. split.
  - intros [A B].
    destruct (Qlt_le_dec hr l2) as [K|K].
    { exists hr, l2. rewrite E5, F5, Qabs_le. repeat split; lra. }
    destruct (Qlt_le_dec h2 lr) as [L|L].
    { exists lr, h2. rewrite E5, F5, Qabs_le. repeat split; lra. }
    destruct (Qlt_le_dec lr l2) as [M|M].
    { exists l2, l2. rewrite E5, F5, Qabs_le. repeat split; lra. }
    { exists lr, lr. rewrite E5, F5, Qabs_le. repeat split; lra. }
  - intros (x & y & X & Y & D). rewrite E5 in X; rewrite F5 in Y. rewrite Qabs_le in D. lra.
Qed.

Lemma intersects_neg r o tol : valid r -> valid o -> tol < 0 -> pre r o tol ->
  exists b, Intersects r o tol = Ok b /\ (b = true <-> overlap_at_least (- tol) r o).
Proof.
  intros Hr Ho Ht Hp.
  destruct (intersects_ends r o tol Hr Ho Hp) as (b & Hb & Hi).
  exists b; split; [exact Hb|]. rewrite Hi; clear Hi Hb.
  specialize (Hp Ht). rewrite !half in Hp.
  destruct (ends r) as (lr & hr & E1 & E2 & E3 & E4 & E5 & E6).
  destruct (ends o) as (l2 & h2 & F1 & F2 & F3 & F4 & F5 & F6).
  unfold overlap_at_least. split.
  - intros [A B].
    destruct (Qlt_le_dec lr l2) as [M|M]; destruct (Qlt_le_dec hr h2) as [K|K].
    + exists l2, hr. rewrite !E5, !F5. repeat split; lra.
    + exists l2, h2. rewrite !E5, !F5. repeat split; lra.
    + exists lr, hr. rewrite !E5, !F5. repeat split; lra.
    + exists lr, h2. rewrite !E5, !F5. repeat split; lra.
  - intros (x & y & A & B & C & D & E). rewrite E5 in *; rewrite F5 in *. lra.
Qed.

Lemma intersects_sym r o tol : valid r -> valid o -> Intersects r o tol = Intersects o r tol.
Proof.
  intros Hr Ho.
  destruct (range_pre_spec r o tol Hr Ho) as [Y|N].
  - assert (Y' : pre o r tol) by (unfold pre in *; intro K; destruct (Y K); split; assumption).
    destruct (intersects_ends r o tol Hr Ho Y) as (b & -> & Hi).
    destruct (intersects_ends o r tol Ho Hr Y') as (c & -> & Hj).
    f_equal. apply eq_true_iff_eq. rewrite Hi, Hj.
    split; intros [A B]; split; lra.
  - rewrite intersects_throw; auto. rewrite intersects_throw; auto.
    intro K. apply N. unfold pre in *. intro T; destruct (K T); split; assumption.
Qed.

Lemma valid_flip r : valid r -> valid (flip r).
Proof. unfold valid, flip; simpl; tauto. Qed.

Lemma size_flip r : size (flip r) == size r.
Proof. unfold size, flip; simpl. rewrite Qabs_Qminus. reflexivity. Qed.

Lemma pre_flip r o tol : pre (flip r) o tol <-> pre r o tol.
Proof. unfold pre. rewrite !half, size_flip. tauto. Qed.

Lemma cmin_flip r : cmin (s0 (flip r)) (s1 (flip r)) == cmin (s0 r) (s1 r).
Proof. unfold cmin, flip; simpl; qcases; lra. Qed.
Lemma cmax_flip r : cmax (s0 (flip r)) (s1 (flip r)) == cmax (s0 r) (s1 r).
Proof. unfold cmax, flip; simpl; qcases; lra. Qed.

Lemma intersects_flip r o tol : valid r -> valid o -> Intersects (flip r) o tol = Intersects r o tol.
Proof.
  intros Hr Ho. pose proof (valid_flip r Hr) as Hf.
  destruct (range_pre_spec r o tol Hr Ho) as [Y|N].
  - assert (Y' : pre (flip r) o tol) by (apply pre_flip; exact Y).
    destruct (intersects_ends r o tol Hr Ho Y) as (b & -> & Hi).
    destruct (intersects_ends (flip r) o tol Hf Ho Y') as (c & -> & Hj).
    f_equal. apply eq_true_iff_eq. rewrite Hi, Hj. rewrite cmin_flip, cmax_flip. tauto.
  - rewrite intersects_throw; auto. rewrite intersects_throw; auto.
    intro K. apply N. apply pre_flip; exact K.
Qed.

(** Contains *)
Lemma contains_ends r o tol : valid r -> valid o -> pre r o tol ->
  exists b, Contains r o tol = Ok b /\
   (b = true <-> cmin (s0 r) (s1 r) - tol <= cmin (s0 o) (s1 o)
               /\ cmax (s0 o) (s1 o) <= cmax (s0 r) (s1 r) + tol).
Proof.
  intros Hr Ho Hp. unfold Contains.
  destruct (range_pre_spec r o tol Hr Ho) as [_|N]; [|contradiction]. simpl.
  eexists; split; [reflexivity|].
  rewrite !andb_true_iff, !Qleb_true. unfold WithS, valid in *.
  set (lo := cmax _ _). set (hi := if Qltb _ _ then _ else _).
  assert (Hlo : lo == cmax (cmin (s0 r) (s1 r) - tol) 0).
  { unfold lo, cmax, cmin. qcases; lra. }
  assert (Hhi : hi == cmax (s0 r) (s1 r) + tol).
  { unfold hi, cmax. qcases; lra. }
  rewrite Hlo, Hhi. clearbody lo hi.
  pose proof (cmax_l (cmin (s0 r) (s1 r) - tol) 0) as L1.
  pose proof (cmax_l (s0 o) (s1 o)) as L2. pose proof (cmax_r (s0 o) (s1 o)) as L3.
  pose proof (cmin_l (s0 o) (s1 o)) as L4. pose proof (cmin_r (s0 o) (s1 o)) as L5.
  split.
  - intros [[A B] [C D]]. split.
    + assert (cmin (s0 o) (s1 o) == s0 o \/ cmin (s0 o) (s1 o) == s1 o) by (unfold cmin; qcases; lra). lra.
    + assert (cmax (s0 o) (s1 o) == s0 o \/ cmax (s0 o) (s1 o) == s1 o) by (unfold cmax; qcases; lra). lra.
  - intros [A B].
    destruct (cmax_cases (cmin (s0 r) (s1 r) - tol) 0); repeat split; lra.
Qed.

Lemma contains_throw r o tol : valid r -> valid o -> ~ pre r o tol -> Contains r o tol = Throw.
Proof.
  intros Hr Ho Hp. unfold Contains.
  destruct (range_pre_spec r o tol Hr Ho) as [Y|N]; [contradiction|]. reflexivity.
Qed.

Lemma contains_pos r o tol : valid r -> valid o -> 0 <= tol ->
  exists b, Contains r o tol = Ok b /\ (b = true <-> within tol r o).
Proof.
  intros Hr Ho Ht.
  destruct (contains_ends r o tol Hr Ho) as (b & Hb & Hi). { intro; lra. }
  exists b; split; [exact Hb|]. rewrite Hi; clear Hi Hb.
  destruct (ends r) as (lr & hr & E1 & E2 & E3 & E4 & E5 & E6).
  destruct (ends o) as (l2 & h2 & F1 & F2 & F3 & F4 & F5 & F6).
  unfold within. split.
  - intros [A B] y Y. rewrite F5 in Y.
    destruct (Qlt_le_dec y lr) as [K|K].
    { exists lr. rewrite E5, Qabs_le. repeat split; lra. }
    destruct (Qlt_le_dec hr y) as [L|L].
    { exists hr. rewrite E5, Qabs_le. repeat split; lra. }
    exists y. rewrite E5, Qabs_le. repeat split; lra.
  - intros H.
    destruct (H l2) as (x & X & D); [apply F5; lra|]. rewrite E5 in X. rewrite Qabs_le in D.
    destruct (H h2) as (x' & X' & D'); [apply F5; lra|]. rewrite E5 in X'. rewrite Qabs_le in D'.
    lra.
Qed.

(** negative tolerance: other keeps a margin |tol| to both ends *)
Lemma contains_neg r o tol : valid r -> valid o -> tol < 0 -> pre r o tol ->
  exists b, Contains r o tol = Ok b /\
   (b = true <-> (forall y, In_range y o -> forall z, Qabs (z - y) <= - tol -> In_range z r)).
Proof.
  intros Hr Ho Ht Hp.
  destruct (contains_ends r o tol Hr Ho Hp) as (b & Hb & Hi).
  exists b; split; [exact Hb|]. rewrite Hi; clear Hi Hb.
  destruct (ends r) as (lr & hr & E1 & E2 & E3 & E4 & E5 & E6).
  destruct (ends o) as (l2 & h2 & F1 & F2 & F3 & F4 & F5 & F6).
  split.
  - intros [A B] y Y z Z. rewrite F5 in Y. rewrite E5. rewrite Qabs_le in Z. lra.
  - intros H.
    assert (X1 : In_range (l2 + tol) r). { apply (H l2); [apply F5; lra|apply Qabs_le; lra]. }
    assert (X2 : In_range (h2 - tol) r). { apply (H h2); [apply F5; lra|apply Qabs_le; lra]. }
    rewrite E5 in X1, X2. lra.
Qed.

(** GetIntersection *)
Lemma get_ok_iff r o tol : valid r -> valid o -> pre r o tol ->
  exists b m, Intersects r o tol = Ok b /\ GetIntersection r o tol = Ok m /\
     (b = true -> exists i, m = Some i /\ valid i) /\ (b = false -> m = None).
Proof.
  intros Hr Ho Hp.
  destruct (intersects_ends r o tol Hr Ho Hp) as (b & Hb & Hi).
  unfold GetIntersection. rewrite Hb; simpl. destruct b.
  - destruct (wider_ok r o tol Hr Hp) as (w & -> & W0 & W1). simpl.
    set (mx := if Qleb _ (cmax (s0 o) (s1 o)) then _ else _). set (mn := if Qleb (cmin (s0 o) (s1 o)) _ then _ else _).
    assert (P1 : 0 <= mn). { unfold mn, valid in *. unfold cmin. qcases; lra. }
    assert (P2 : 0 <= mx). { unfold mx, valid in *. unfold cmax. qcases; lra. }
    unfold SRange. apply Qleb_true in P1, P2. rewrite P1; simpl. rewrite P2; simpl.
    exists true. eexists. split; [reflexivity|]. split; [reflexivity|]. split; [|discriminate].
    intros _. eexists; split; [reflexivity|]. unfold valid; simpl. rewrite Qleb_true in P1, P2. tauto.
  - exists false, None. repeat split; discriminate.
Qed.

Lemma get_zero r o : valid r -> valid o ->
  exists m, GetIntersection r o 0 = Ok m /\
   match m with
   | Some i => s0 i <= s1 i /\ (forall x, In_range x i <-> In_range x r /\ In_range x o)
   | None => forall x, ~ (In_range x r /\ In_range x o)
   end.
Proof.
  intros Hr Ho.
  assert (Hp : pre r o 0) by (intro; lra).
  destruct (intersects_ends r o 0 Hr Ho Hp) as (b & Hb & Hi).
  destruct (ends r) as (lr & hr & E1 & E2 & E3 & E4 & E5 & E6).
  destruct (ends o) as (l2 & h2 & F1 & F2 & F3 & F4 & F5 & F6).
  unfold GetIntersection. rewrite Hb; simpl. destruct b.
  - destruct Hi as [Hi _]. specialize (Hi eq_refl). destruct Hi as [A B].
    destruct (wider_ok r o 0 Hr Hp) as (w & -> & W0 & W1). simpl.
    rewrite W0, W1. clear W0 W1.
    assert (P0 : 0 <= lr /\ 0 <= l2) by (unfold valid in *; lra).
    assert (W0 : cmax (cmin (s0 r) (s1 r) - 0) 0 == lr) by (destruct (cmax_cases (cmin (s0 r) (s1 r) - 0) 0); lra).
    set (mx := if Qleb _ (cmax (s0 o) (s1 o)) then _ else _). set (mn := if Qleb (cmin (s0 o) (s1 o)) _ then _ else _).
    assert (M1 : mx <= hr /\ mx <= h2 /\ (mx == hr \/ mx == h2)) by (unfold mx; qcases; lra).
    assert (M2 : lr <= mn /\ l2 <= mn /\ (mn == lr \/ mn == l2)) by (unfold mn; qcases; lra).
    clearbody mx mn.
    unfold SRange.
    assert (P1 : 0 <= mn) by lra. assert (P2 : 0 <= mx) by lra.
    apply Qleb_true in P1, P2. rewrite P1; simpl. rewrite P2; simpl.
    eexists; split; [reflexivity|]. simpl. split; [lra|].
    intro x. rewrite E5, F5. unfold In_range; simpl. split; intros; [|left]; try lra.
  - eexists; split; [reflexivity|]. simpl. intros x [X Y]. rewrite E5 in X. rewrite F5 in Y.
    destruct Hi as [_ Hi]. assert (false = true); [|discriminate]. apply Hi. lra.
Qed.

(** For positive tolerance the returned ends are within tolerance of both ranges
    but may come in the wrong order. *)
Lemma get_pos r o tol i : valid r -> valid o -> 0 <= tol -> GetIntersection r o tol = Ok (Some i) ->
   (forall x, (x = s0 i \/ x = s1 i) ->
      (exists y, In_range y r /\ Qabs (x - y) <= tol) /\ (exists y, In_range y o /\ Qabs (x - y) <= tol))
   /\ (forall x, In_range x r -> In_range x o -> s0 i <= x + tol /\ x <= s1 i + tol).
Proof.
  intros Hr Ho Ht H.
  assert (Hp : pre r o tol) by (intro; lra).
  destruct (intersects_ends r o tol Hr Ho Hp) as (b & Hb & Hi).
  destruct (ends r) as (lr & hr & E1 & E2 & E3 & E4 & E5 & E6).
  destruct (ends o) as (l2 & h2 & F1 & F2 & F3 & F4 & F5 & F6).
  unfold GetIntersection in H. rewrite Hb in H; simpl in H. destruct b; [|discriminate].
  destruct Hi as [Hi _]. specialize (Hi eq_refl). destruct Hi as [A B].
  destruct (wider_ok r o tol Hr Hp) as (w & W & W0 & W1). rewrite W in H. simpl in H.
  rewrite W0, W1 in H. clear W W0 W1.
  assert (P0 : 0 <= lr /\ 0 <= l2) by (unfold valid in *; lra).
  assert (W0 : lr - tol <= cmax (cmin (s0 r) (s1 r) - tol) 0 /\ cmax (cmin (s0 r) (s1 r) - tol) 0 <= lr)
    by (destruct (cmax_cases (cmin (s0 r) (s1 r) - tol) 0); lra).
  revert H.
  set (mx := if Qleb _ (cmax (s0 o) (s1 o)) then _ else _). set (mn := if Qleb (cmin (s0 o) (s1 o)) _ then _ else _). intro H.
  assert (M1 : (mx == hr /\ hr + tol <= h2) \/ (mx == h2 /\ h2 <= hr + tol)) by (unfold mx; qcases; lra).
  assert (M2 : (mn == lr /\ l2 <= lr) \/ (mn == l2 /\ lr - tol <= l2)) by (unfold mn; qcases; lra).
  clearbody mx mn.
  unfold SRange in H.
  assert (P1 : 0 <= mn) by lra. assert (P2 : 0 <= mx) by lra.
  apply Qleb_true in P1, P2. rewrite P1 in H; simpl in H. rewrite P2 in H; simpl in H.
  inversion H; subst i; clear H. simpl.
  split.
  - intros x [X|X]; subst x.
    + split.
      * destruct M2 as [[M2 M3]|[M2 M3]].
        -- exists lr. rewrite E5, Qabs_le. lra.
        -- destruct (Qlt_le_dec l2 lr).
           ++ exists lr. rewrite E5, Qabs_le. lra.
           ++ destruct (Qlt_le_dec hr l2).
              ** exists hr. rewrite E5, Qabs_le. lra.
              ** exists l2. rewrite E5, Qabs_le. lra.
      * destruct M2 as [[M2 M3]|[M2 M3]].
        -- destruct (Qlt_le_dec h2 lr).
           ++ exists h2. rewrite F5, Qabs_le. lra.
           ++ exists lr. rewrite F5, Qabs_le. lra.
        -- exists l2. rewrite F5, Qabs_le. lra.
    + split.
      * destruct M1 as [[M1 M3]|[M1 M3]].
        -- exists hr. rewrite E5, Qabs_le. lra.
        -- destruct (Qlt_le_dec h2 lr).
           ++ exists lr. rewrite E5, Qabs_le. lra.
           ++ destruct (Qlt_le_dec hr h2).
              ** exists hr. rewrite E5, Qabs_le. lra.
              ** exists h2. rewrite E5, Qabs_le. lra.
      * destruct M1 as [[M1 M3]|[M1 M3]].
        -- destruct (Qlt_le_dec hr l2).
           ++ exists l2. rewrite F5, Qabs_le. lra.
           ++ exists hr. rewrite F5, Qabs_le. lra.
        -- exists h2. rewrite F5, Qabs_le. lra.
  - intros x X Y. rewrite E5 in X; rewrite F5 in Y. lra.
Qed.

(** Lane ranges and routes *)
Lemma lintersects_pos a b tol : lvalid a -> lvalid b -> 0 <= tol ->
  exists x, LIntersects a b tol = Ok x /\ (x = true <-> lnear tol a b).
Proof.
  intros Ha Hb Ht. unfold LIntersects, lnear.
  destruct (Nat.eqb_spec (lane_id a) (lane_id b)) as [E|E].
  - destruct (intersects_pos (s_range a) (s_range b) tol Ha Hb Ht) as (x & Hx & I).
    exists x; split; [exact Hx|]. rewrite I; tauto.
  - exists false; split; [reflexivity|]. split; [discriminate|tauto].
Qed.

Lemma lgetintersection_never_throws_extra a b tol : lvalid a -> lvalid b -> 0 <= tol ->
  exists m, LGetIntersection a b tol = Ok m /\
    match m with
    | Some i => lnear tol a b /\ lane_id i = lane_id a
                /\ GetIntersection (s_range a) (s_range b) tol = Ok (Some (s_range i))
    | None => ~ lnear tol a b
    end.
Proof.
  intros Ha Hb Ht.
  assert (Hp : pre (s_range a) (s_range b) tol) by (intro; lra).
  destruct (lintersects_pos a b tol Ha Hb Ht) as (x & Hx & I).
  unfold LGetIntersection. rewrite Hx; simpl. destruct x.
  - pose proof (proj1 I eq_refl) as [E N].
    destruct (get_ok_iff (s_range a) (s_range b) tol Ha Hb Hp) as (b' & m & B & M & G1 & G2).
    destruct (intersects_pos (s_range a) (s_range b) tol Ha Hb Ht) as (b2 & B2 & I2).
    rewrite B in B2; inversion B2; subst b2.
    destruct (G1 (proj2 I2 N)) as (i & -> & _).
    rewrite M; simpl. eexists; split; [reflexivity|]. simpl. repeat split; auto.
  - eexists; split; [reflexivity|]. intro K. apply I in K. discriminate.
Qed.

Lemma rintersects_sound a b tol : Forall lvalid a -> Forall lvalid b -> 0 <= tol ->
  exists x, RIntersects a b tol = Ok x /\ (x = true -> rnear tol a b).
Proof.
  intros Ha Hb Ht. induction Ha as [|r a Hr Ha IH].
  - exists false; split; [reflexivity|discriminate].
  - simpl. destruct IH as (x & IH & S).
    destruct (find _ b) as [y|] eqn:F.
    + apply find_some in F. destruct F as [Iy Ey].
      assert (Hy : lvalid y) by (rewrite Forall_forall in Hb; auto).
      destruct (lintersects_pos r y tol Hr Hy Ht) as (h & -> & I). simpl. destruct h.
      * exists true; split; [reflexivity|]. intros _. exists r, y. repeat split; simpl; auto; apply I; reflexivity.
      * exists x; split; [exact IH|]. intro K. destruct (S K) as (u & v & U & V & N).
        exists u, v; simpl; auto.
    + exists x; split; [exact IH|]. intro K. destruct (S K) as (u & v & U & V & N).
      exists u, v; simpl; auto.
Qed.

Lemma find_unique b r y : NoDup (map lane_id b) -> In y b -> lane_id r = lane_id y ->
  find (fun x => Nat.eqb (lane_id r) (lane_id x)) b = Some y.
Proof.
  induction b as [|z b IH]; simpl; intros N I E; [contradiction|].
  inversion N as [|? ? N1 N2]; subst.
  destruct (Nat.eqb_spec (lane_id r) (lane_id z)) as [K|K].
  - destruct I as [I|I]; [congruence|].
    exfalso. apply N1. rewrite <- K, E. apply in_map. exact I.
  - destruct I as [I|I]; [congruence|]. apply IH; auto.
Qed.

Lemma rintersects_complete a b tol : Forall lvalid a -> Forall lvalid b -> 0 <= tol ->
  NoDup (map lane_id b) -> rnear tol a b -> RIntersects a b tol = Ok true.
Proof.
  intros Ha Hb Ht N (x & y & X & Y & L).
  induction Ha as [|r a Hr Ha IH]; [contradiction|].
  destruct (rintersects_sound a b tol Ha Hb Ht) as (z & Z & _).
  simpl. destruct X as [X|X].
  - subst r. rewrite (find_unique b x y N Y (proj1 L)).
    assert (Hy : lvalid y) by (rewrite Forall_forall in Hb; auto).
    destruct (lintersects_pos x y tol Hr Hy Ht) as (h & -> & I). simpl.
    rewrite (proj2 I L). reflexivity.
  - rewrite (IH X). destruct (find _ b) as [y'|] eqn:F; [|reflexivity].
    apply find_some in F. destruct F as [Iy Ey].
    assert (Hy : lvalid y') by (rewrite Forall_forall in Hb; auto).
    destruct (lintersects_pos r y' tol Hr Hy Ht) as (h & -> & I). simpl. destruct h; reflexivity.
Qed.

Lemma rintersects_iff a b tol : Forall lvalid a -> Forall lvalid b -> 0 <= tol ->
  NoDup (map lane_id b) -> exists x, RIntersects a b tol = Ok x /\ (x = true <-> rnear tol a b).
Proof.
  intros Ha Hb Ht N. destruct (rintersects_sound a b tol Ha Hb Ht) as (x & X & S).
  exists x; split; [exact X|]. split; [exact S|].
  intro R. rewrite (rintersects_complete a b tol Ha Hb Ht N R) in X. congruence.
Qed.

Lemma route_length_acc rs acc : fold_left (fun acc r => acc + size (s_range r)) rs acc
  == acc + fold_left (fun acc r => acc + size (s_range r)) rs 0.
Proof.
  revert acc; induction rs as [|r rs IH]; simpl; intro acc; [lra|].
  rewrite IH. rewrite (IH (0 + _)). lra.
Qed.
Lemma route_length_app a b : route_length (a ++ b) == route_length a + route_length b.
Proof. unfold route_length. rewrite fold_left_app, route_length_acc. reflexivity. Qed.
Lemma route_length_nonneg a : 0 <= route_length a.
Proof.
  induction a as [|r a IH]; [unfold route_length; simpl; lra|].
  change (r :: a) with ([r] ++ a). rewrite route_length_app.
  assert (0 <= route_length [r]). { unfold route_length, size; simpl. pose proof (Qabs_nonneg (s1 (s_range r) - s0 (s_range r))). lra. }
  lra.
Qed.

(** IsIncluded *)
Section Inc.
Variable to_lane : nat -> option (Q * Q).
Variable tol : Q.
Hypothesis Htol : 0 <= tol.

Lemma included_on_range r d s : lvalid r -> to_lane (lane_id r) = Some (d, s) -> 0 <= s -> d <= tol ->
  exists b, obind (SRange s s) (fun p => Intersects (s_range r) p tol) = Ok b /\ (b = true <-> on_range to_lane tol r).
Proof.
  intros Hr E Hs Hd. unfold SRange.
  pose proof Hs as Hs'. apply Qleb_true in Hs'. rewrite Hs'; simpl.
  destruct (intersects_pos (s_range r) (mk_srange s s) tol) as (b & -> & I); auto.
  { unfold valid; simpl; auto. }
  exists b; split; [reflexivity|]. rewrite I. unfold near, on_range. split.
  - intros (x & y & X & Y & D). exists d, s. repeat split; auto. exists x; split; auto.
    assert (Ey : y == s) by (unfold In_range in Y; simpl in Y; lra).
    rewrite <- Ey. exact D.
  - intros (d' & s' & E' & Hd' & x & X & D). rewrite E in E'. inversion E'; subst.
    exists x, s'. repeat split; auto. unfold In_range; simpl; lra.
Qed.

Lemma included_sound rs : Forall lvalid rs -> s_nonneg to_lane -> rs <> [] ->
  (forall r, In r rs -> to_lane (lane_id r) <> None) ->
  exists b, IsIncluded to_lane tol rs = Ok b /\ (b = true -> exists r, In r rs /\ on_range to_lane tol r).
Proof.
  intros Hv Hs Hne Hl. unfold IsIncluded.
  assert (E : match rs with [] => false | _ => true end = true) by (destruct rs; congruence).
  rewrite E; simpl; clear E.
  assert (F : forallb (fun r => match to_lane (lane_id r) with Some _ => true | None => false end) rs = true).
  { apply forallb_forall. intros r I. specialize (Hl r I). destruct (to_lane (lane_id r)); congruence. }
  rewrite F; simpl; clear F Hne.
  induction Hv as [|r rs Hr Hv IH]; simpl.
  - exists false; split; [reflexivity|discriminate].
  - destruct (to_lane (lane_id r)) as [[d s]|] eqn:E.
    2:{ exfalso. apply (Hl r); simpl; auto. }
    destruct (Qleb_spec d tol) as [D|D].
    + destruct (included_on_range r d s Hr E (Hs _ _ _ E) D) as (b & -> & I).
      exists b; split; [reflexivity|]. intro B. exists r; split; [left; reflexivity|]. apply I; exact B.
    + destruct IH as (b & -> & I).
      { intros r' I'. apply Hl; right; exact I'. }
      exists b; split; [reflexivity|]. intro B. destruct (I B) as (r' & I' & O). exists r'; split; [right; exact I'|exact O].
Qed.

Lemma included_complete rs : Forall lvalid rs -> s_nonneg to_lane -> decisive to_lane tol rs ->
  (forall r, In r rs -> to_lane (lane_id r) <> None) ->
  (exists r, In r rs /\ on_range to_lane tol r) -> IsIncluded to_lane tol rs = Ok true.
Proof.
  intros Hv Hs Hd Hl (r0 & I0 & O0). unfold IsIncluded.
  assert (E : match rs with [] => false | _ => true end = true) by (destruct rs; simpl in *; tauto).
  rewrite E; simpl; clear E.
  assert (F : forallb (fun r => match to_lane (lane_id r) with Some _ => true | None => false end) rs = true).
  { apply forallb_forall. intros r I. specialize (Hl r I). destruct (to_lane (lane_id r)); congruence. }
  rewrite F; simpl; clear F.
  induction Hv as [|r rs Hr Hv IH]; simpl; [contradiction|].
  destruct (to_lane (lane_id r)) as [[d s]|] eqn:E.
  2:{ exfalso. apply (Hl r); simpl; auto. }
  destruct O0 as (d0 & s0' & E0 & D0 & X0).
  destruct (Qleb_spec d tol) as [D|D].
  - assert (r = r0) by exact (Hd r r0 d s d0 s0' (or_introl eq_refl) I0 E D E0 D0).
    subst r0. destruct (included_on_range r d s Hr E (Hs _ _ _ E) D) as (b & -> & I).
    f_equal. apply I. exists d0, s0'. auto.
  - destruct I0 as [I0|I0].
    { subst r0. rewrite E in E0. inversion E0; subst. lra. }
    apply IH; auto.
    + intros r1 r2 d1 x1 d2 x2 I1 I2. exact (Hd r1 r2 d1 x1 d2 x2 (or_intror I1) (or_intror I2)).
    + intros r' I'. apply Hl; right; auto.

Qed.
End Inc.

(** Forms used by the Props file. *)
Lemma srange_ctor_spec : forall a b,
  match SRange a b with
  | Ok r => valid r /\ s0 r = a /\ s1 r = b
  | Throw => a < 0 \/ b < 0
  | UB => False
  end.
Proof.
  intros a b. unfold SRange, throw_unless, valid. qcases; simpl; auto.
Qed.

Lemma intersects_neg' : forall r o tol, valid r -> valid o -> tol < 0 ->
  - tol <= size r / 2 -> - tol <= size o / 2 ->
  exists b, Intersects r o tol = Ok b /\ (b = true <-> overlap_at_least (- tol) r o).
Proof. intros. apply intersects_neg; auto. unfold pre; auto. Qed.

Lemma pre_dec r o tol : pre r o tol \/ (tol < 0 /\ (size r / 2 < - tol \/ size o / 2 < - tol)).
Proof.
  unfold pre. destruct (Qlt_le_dec tol 0) as [T|T]; [|left; intro; lra].
  destruct (Qlt_le_dec (size r / 2) (- tol)); [right; auto|].
  destruct (Qlt_le_dec (size o / 2) (- tol)); [right; auto|]. left; auto.
Qed.

Lemma intersects_throw_iff : forall r o tol, valid r -> valid o ->
  (Intersects r o tol = Throw <-> tol < 0 /\ (size r / 2 < - tol \/ size o / 2 < - tol)).
Proof.
  intros r o tol Hr Ho. split.
  - intro H. destruct (pre_dec r o tol) as [P|P]; [|exact P].
    destruct (intersects_ends r o tol Hr Ho P) as (b & B & _). congruence.
  - intros [T P]. apply intersects_throw; auto. intro K. destruct (K T). lra.
Qed.

Lemma contains_throw_iff : forall r o tol, valid r -> valid o ->
  (Contains r o tol = Throw <-> tol < 0 /\ (size r / 2 < - tol \/ size o / 2 < - tol)).
Proof.
  intros r o tol Hr Ho. split.
  - intro H. destruct (pre_dec r o tol) as [P|P]; [|exact P].
    destruct (contains_ends r o tol Hr Ho P) as (b & B & _). congruence.
  - intros [T P]. apply contains_throw; auto. intro K. destruct (K T). lra.
Qed.

Lemma contains_neg' : forall r o tol, valid r -> valid o -> tol < 0 ->
  - tol <= size r / 2 -> - tol <= size o / 2 ->
  exists b, Contains r o tol = Ok b /\
   (b = true <-> (forall y, In_range y o -> forall z, Qabs (z - y) <= - tol -> In_range z r)).
Proof. intros. apply contains_neg; auto. unfold pre; auto. Qed.

Lemma intersects_flip2 : forall r o tol, valid r -> valid o ->
  Intersects (flip r) o tol = Intersects r o tol /\ Intersects r (flip o) tol = Intersects r o tol.
Proof.
  intros r o tol Hr Ho. split; [apply intersects_flip; auto|].
  rewrite intersects_sym; auto using valid_flip. rewrite intersects_flip; auto. apply intersects_sym; auto.
Qed.

Lemma intersects_widens_both_refuted :
  exists r o tol x, valid r /\ valid o /\ 0 <= tol /\
    In_range x (mk_srange (s0 r - tol) (s1 r + tol)) /\ In_range x (mk_srange (s0 o - tol) (s1 o + tol)) /\
    Intersects r o tol = Ok false.
Proof.
  exists (mk_srange 1 2), (mk_srange 4 6), (3#2), 3.
  unfold valid, In_range; simpl. repeat split; try lra; try (left; lra). 
Qed.

Lemma contains_order : forall r o q, valid r -> valid o -> valid q ->
  Contains r r 0 = Ok true /\
  (Contains r o 0 = Ok true -> Contains o q 0 = Ok true -> Contains r q 0 = Ok true) /\
  (forall tol, 0 <= tol -> Contains r o tol = Ok true -> Intersects r o tol = Ok true).
Proof.
  intros r o q Hr Ho Hq.
  assert (Z : forall a b, pre a b 0) by (intros a b K; lra).
  split; [|split].
  - destruct (contains_ends r r 0 Hr Hr (Z r r)) as (b & -> & I). f_equal. apply I. lra.
  - destruct (contains_ends r o 0 Hr Ho (Z r o)) as (b1 & -> & I1).
    destruct (contains_ends o q 0 Ho Hq (Z o q)) as (b2 & -> & I2).
    destruct (contains_ends r q 0 Hr Hq (Z r q)) as (b3 & -> & I3).
    intros E1 E2. inversion E1; inversion E2; subst. f_equal. apply I3.
    destruct I1 as [I1 _], I2 as [I2 _]. specialize (I1 eq_refl). specialize (I2 eq_refl). lra.
  - intros tol T E. assert (P : pre r o tol) by (intro; lra).
    destruct (contains_ends r o tol Hr Ho P) as (b1 & B1 & I1). rewrite B1 in E. inversion E; subst.
    destruct (intersects_ends r o tol Hr Ho P) as (b2 & -> & I2). f_equal. apply I2.
    destruct I1 as [I1 _]. specialize (I1 eq_refl).
    destruct (ends r) as (lr & hr & E1 & E2 & E3 & _). destruct (ends o) as (l2 & h2 & F1 & F2 & F3 & _). lra.
Qed.

Lemma get_iff : forall r o tol, valid r -> valid o -> 0 <= tol ->
  exists m, GetIntersection r o tol = Ok m /\
    (near tol r o <-> exists i, m = Some i /\ valid i).
Proof.
  intros r o tol Hr Ho Ht. assert (P : pre r o tol) by (intro; lra).
  destruct (get_ok_iff r o tol Hr Ho P) as (b & m & B & M & G1 & G2).
  destruct (intersects_pos r o tol Hr Ho Ht) as (b' & B' & I). rewrite B in B'. inversion B'; subst b'.
  exists m; split; [exact M|]. split.
  - intro N. apply G1. apply I. exact N.
  - intros (i & E & _). apply I. destruct b; [reflexivity|]. rewrite (G2 eq_refl) in E. discriminate.
Qed.

Lemma get_order_refuted :
  exists r o tol i, valid r /\ valid o /\ 0 < tol /\ s0 r < s1 r /\ s0 o < s1 o /\
    GetIntersection r o tol = Ok (Some i) /\ s1 i < s0 i.
Proof.
  exists (mk_srange 0 10), (mk_srange (21#2) 20), 1, (mk_srange (21#2) 10).
  unfold valid; simpl. repeat split; try lra.
Qed.

Lemma get_negative_refuted :
  exists r o tol i x, valid r /\ valid o /\ tol < 0 /\
    GetIntersection r o tol = Ok (Some i) /\ In_range x i /\ ~ In_range x o.
Proof.
  exists (mk_srange 0 10), (mk_srange 0 9), (-2), (mk_srange 0 10), 10.
  unfold valid, In_range; simpl. repeat split; try lra.
Qed.

Lemma near_sym tol a b : near tol a b -> near tol b a.
Proof. intros (x & y & X & Y & D). exists y, x. repeat split; auto. rewrite Qabs_Qminus. exact D. Qed.

Lemma rnear_sym tol a b : rnear tol a b -> rnear tol b a.
Proof. intros (x & y & X & Y & E & N). exists y, x. repeat split; auto. apply near_sym; exact N. Qed.

Lemma rintersects_sym : forall a b tol,
  Forall lvalid a -> Forall lvalid b -> 0 <= tol -> NoDup (map lane_id a) -> NoDup (map lane_id b) ->
  RIntersects a b tol = RIntersects b a tol.
Proof.
  intros a b tol Ha Hb Ht Na Nb.
  destruct (rintersects_iff a b tol Ha Hb Ht Nb) as (x & -> & I).
  destruct (rintersects_iff b a tol Hb Ha Ht Na) as (y & -> & J).
  f_equal. apply eq_true_iff_eq. rewrite I, J. split; apply rnear_sym.
Qed.

Lemma rintersects_refuted :
  exists a b, Forall lvalid a /\ Forall lvalid b /\ rnear 0 a b /\
    RIntersects a b 0 = Ok false /\ RIntersects b a 0 = Ok true.
Proof.
  exists [mk_lsrange 1 (mk_srange 20 30)], [mk_lsrange 1 (mk_srange 0 10); mk_lsrange 1 (mk_srange 20 30)].
  split; [|split; [|split; [|split]]].
  - repeat constructor; simpl; lra.
  - repeat constructor; simpl; lra.
  - exists (mk_lsrange 1 (mk_srange 20 30)), (mk_lsrange 1 (mk_srange 20 30)).
    split; [left; reflexivity|]. split; [right; left; reflexivity|]. split; [reflexivity|].
    exists 20, 20. unfold In_range; simpl. split; [left; lra|]. split; [left; lra|]. vm_compute. discriminate.
  - vm_compute; reflexivity.
  - vm_compute; reflexivity.
Qed.

Lemma included_refuted :
  exists to_lane tol rs, 0 <= tol /\ Forall lvalid rs /\ s_nonneg to_lane /\
    (exists r, In r rs /\ on_range to_lane tol r) /\
    IsIncluded to_lane tol rs = Ok false /\ IsIncluded to_lane tol (rev rs) = Ok true.
Proof.
  exists (fun _ => Some (0, 25)), (1#100), [mk_lsrange 1 (mk_srange 0 10); mk_lsrange 1 (mk_srange 20 30)].
  split; [lra|]. split; [repeat constructor; simpl; lra|].
  split. { intros l d s E. inversion E; subst. lra. }
  split.
  { exists (mk_lsrange 1 (mk_srange 20 30)). split; [right; left; reflexivity|].
    exists 0, 25. split; [reflexivity|]. split; [lra|]. exists 25. split; [left; simpl; lra|]. vm_compute; discriminate. }
  split; vm_compute; reflexivity.
Qed.

Lemma included_throws_iff : forall to_lane tol rs, 0 <= tol ->
  Forall lvalid rs -> s_nonneg to_lane ->
  (IsIncluded to_lane tol rs = Throw <-> rs = [] \/ exists r, In r rs /\ to_lane (lane_id r) = None).
Proof.
  intros to_lane tol rs Ht Hv Hs. split.
  - intro H. destruct rs as [|r0 rs0]; [left; reflexivity|right]. set (rs := r0 :: rs0) in *.
    destruct (forallb (fun r => match to_lane (lane_id r) with Some _ => true | None => false end) rs) eqn:F.
    + exfalso. destruct (included_sound to_lane tol Ht rs Hv Hs) as (b & B & _).
      * unfold rs; discriminate.
      * intros r I. rewrite forallb_forall in F. specialize (F r I). destruct (to_lane (lane_id r)); congruence.
      * congruence.
    + clear H. induction rs as [|r rs' IH]; simpl in F; [discriminate|].
      destruct (to_lane (lane_id r)) eqn:E.
      * inversion Hv; subst. destruct IH as (r' & I & N); auto. exists r'; split; [right|]; auto.
      * exists r; split; [left; reflexivity|exact E].
  - intros [E|(r & I & N)]; unfold IsIncluded.
    + subst; reflexivity.
    + destruct rs as [|r0 rs0]; [contradiction|]. unfold throw_unless; cbv iota.
      destruct (forallb _ (r0 :: rs0)) eqn:F; [|reflexivity].
      rewrite forallb_forall in F. specialize (F r I). rewrite N in F. discriminate.
Qed.
