(** The systems behind periodic and unconstrained cubic splines have solutions. *)
From Coq Require Import List QArith Qabs ZArith Bool Arith Lia Lqa.
From Verif Require Import Base Poly_Model Poly_Spec Traj_Model Traj_Spec Traj_Proofs Traj_Proofs2 Traj_Proofs4 Traj_Proofs6 Traj_Proofs7 Traj_Proofs8 Traj_Proofs9.
Import ListNotations.

(** A linear functional of a sequence. *)
Fixpoint ev (l : list (nat * Q)) (d : nat -> Q) : Q := match l with [] => 0 | (k, c) :: r => c * d k + ev r d end.
Lemma ev_lin l d d0 d1 d2 a s : (forall k, d k == d0 k + a * d1 k + s * d2 k) -> ev l d == ev l d0 + a * ev l d1 + s * ev l d2.
Proof. intros E. induction l as [|[k c] r IH]; cbn [ev]; [ring|]. rewrite IH, E. ring. Qed.

Section bvp.
Variable h : nat -> Q.
Hypothesis Hh : forall i, 0 < h i.
Definition three_term (w d : nat -> Q) : Prop := forall k, d k / h k + 2 * (1 / h k + 1 / h (S k)) * d (S k) + d (S (S k)) / h (S k) == w (S k).
Definition dd (w : nat -> Q) (a s : Q) (k : nat) : Q := match k with O => a | S j => snd (shoot h w a s j) end.
Lemma dd_fst w a s k : dd w a s k = fst (shoot h w a s k).
Proof. destruct k; [reflexivity|]. cbn [dd]. rewrite shoot_link. reflexivity. Qed.
Lemma dd_solves w a s : three_term w (dd w a s).
Proof.
  intros k. rewrite (dd_fst w a s k). cbn [dd shoot]. destruct (shoot h w a s k) as [u v]. cbn [fst snd]. pose proof (Hh k). pose proof (Hh (S k)). field. split; lra.
Qed.
Lemma shoot_lin w a s k :
  fst (shoot h w a s k) == fst (shoot h w 0 0 k) + a * fst (shoot h (fun _ => 0) 1 0 k) + s * fst (shoot h (fun _ => 0) 0 1 k) /\
  snd (shoot h w a s k) == snd (shoot h w 0 0 k) + a * snd (shoot h (fun _ => 0) 1 0 k) + s * snd (shoot h (fun _ => 0) 0 1 k).
Proof.
  induction k as [|j [A B]]; [cbn; split; ring|]. cbn [shoot]. destruct (shoot h w a s j) as [u v]. destruct (shoot h w 0 0 j) as [u0 v0].
  destruct (shoot h (fun _ => 0) 1 0 j) as [u1 v1]. destruct (shoot h (fun _ => 0) 0 1 j) as [u2 v2]. cbn [fst snd] in *.
  split; [exact B|]. rewrite A, B. pose proof (Hh j). pose proof (Hh (S j)). field. split; lra.
Qed.
Lemma dd_lin w a s k : dd w a s k == dd w 0 0 k + a * dd (fun _ => 0) 1 0 k + s * dd (fun _ => 0) 0 1 k.
Proof. rewrite !dd_fst. apply shoot_lin. Qed.
Lemma zero_lin a s k : dd (fun _ => 0) a s k == a * dd (fun _ => 0) 1 0 k + s * dd (fun _ => 0) 0 1 k.
Proof.
  rewrite dd_lin. assert (Z : dd (fun _ => 0) 0 0 k == 0); [|rewrite Z; ring]. rewrite dd_fst.
  assert (X : fst (shoot h (fun _ => 0) 0 0 k) == 0 /\ snd (shoot h (fun _ => 0) 0 0 k) == 0); [|apply X].
  induction k as [|j [A B]]; [cbn; split; reflexivity|]. cbn [shoot]. destruct (shoot h (fun _ => 0) 0 0 j) as [u v]. cbn [fst snd] in *. split; [exact B|]. rewrite A, B. pose proof (Hh j). pose proof (Hh (S j)). field. split; lra.
Qed.
(** Two conditions that only the zero sequence meets homogeneously can always be met. *)
Lemma bvp_exists w l1 l2 r1 r2 :
  (forall d, three_term (fun _ => 0) d -> ev l1 d == 0 -> ev l2 d == 0 -> d 0%nat == 0 /\ d 1%nat == 0) ->
  exists d, three_term w d /\ ev l1 d == r1 /\ ev l2 d == r2.
Proof.
  intros U. set (f := dd w 0 0). set (g := dd (fun _ => 0) 1 0). set (e := dd (fun _ => 0) 0 1).
  assert (K : forall a s, a * ev l1 g + s * ev l1 e == 0 -> a * ev l2 g + s * ev l2 e == 0 -> a == 0 /\ s == 0).
  { intros a s A B. assert (Z : forall l, ev l (fun _ => 0) == 0) by (induction l as [|[k c] r IH]; cbn [ev]; [reflexivity|rewrite IH; ring]).
    assert (V : forall l, ev l (dd (fun _ => 0) a s) == a * ev l g + s * ev l e).
    { intros l. pose proof (ev_lin l (dd (fun _ => 0) a s) (fun _ => 0) g e a s ltac:(intros k; unfold g, e; rewrite zero_lin; ring)) as V. rewrite (Z l) in V. lra. }
    destruct (U (dd (fun _ => 0) a s) (dd_solves _ a s)) as [X Y]; [rewrite V; exact A|rewrite V; exact B|]. cbn [dd shoot snd] in X, Y. auto. }
  set (p1 := ev l1 g) in *. set (q1 := ev l1 e) in *. set (p2 := ev l2 g) in *. set (q2 := ev l2 e) in *.
  assert (D : ~ p1 * q2 - p2 * q1 == 0).
  { intros D. destruct (K q2 (- p2)) as [A B]; [lra|ring|]. destruct (K q1 (- p1)) as [A' B']; [ring|lra|]. destruct (K 1 0) as [X _]; lra. }
  set (c1 := r1 - ev l1 f). set (c2 := r2 - ev l2 f). set (a := (c1 * q2 - c2 * q1) / (p1 * q2 - p2 * q1)). set (s := (p1 * c2 - p2 * c1) / (p1 * q2 - p2 * q1)).
  exists (dd w a s). split; [apply dd_solves|]. split.
  - pose proof (ev_lin l1 (dd w a s) f g e a s (dd_lin w a s)) as V. fold p1 q1 in V. assert (X : a * p1 + s * q1 == c1) by (unfold a, s; field; exact D). unfold c1 in X. lra.
  - pose proof (ev_lin l2 (dd w a s) f g e a s (dd_lin w a s)) as V. fold p2 q2 in V. assert (X : a * p2 + s * q2 == c2) by (unfold a, s; field; exact D). unfold c2 in X. lra.
Qed.

(** Cyclic conditions. *)
Lemma largest (d : nat -> Q) n : exists k, (k <= n)%nat /\ forall j, (j <= n)%nat -> Qabs (d j) <= Qabs (d k).
Proof.
  induction n as [|n (k & Hk & M)]; [exists 0%nat; split; [lia|]; intros j Hj; assert (j = 0)%nat by lia; subst; lra|].
  destruct (Qlt_le_dec (Qabs (d k)) (Qabs (d (S n)))) as [L|L].
  - exists (S n). split; [lia|]. intros j Hj. destruct (Nat.eq_dec j (S n)) as [->|N]; [lra|]. specialize (M j ltac:(lia)). lra.
  - exists k. split; [lia|]. intros j Hj. destruct (Nat.eq_dec j (S n)) as [->|N]; [lra|]. apply M. lia.
Qed.
Lemma dominated u v x y z : 0 < u -> 0 < v -> u * x + 2 * (u + v) * y + v * z == 0 -> Qabs x <= Qabs y -> Qabs z <= Qabs y -> y == 0.
Proof.
  intros Hu Hv E X Z. revert X Z. apply (Qabs_case y); intros Sy; apply (Qabs_case x); intros Sx; apply (Qabs_case z); intros Sz X Z; destruct (Qlt_le_dec 0 y) as [P|P]; destruct (Qlt_le_dec y 0) as [P'|P']; try lra; exfalso; nra.
Qed.
Lemma cyclic_zero n d : three_term (fun _ => 0) d -> d (S n) == d 0%nat -> d n / h n + 2 * (1 / h n + 1 / h 0%nat) * d 0%nat + d 1%nat / h 0%nat == 0 -> (1 <= n)%nat -> d 0%nat == 0 /\ d 1%nat == 0.
Proof.
  intros T C E Hn. destruct (largest d n) as (k & Hk & M).
  assert (Z : d k == 0).
  { assert (I : forall i, 0 < 1 / h i) by (intros i; apply Qlt_shift_div_l; [apply Hh|rewrite Qmult_0_l; reflexivity]). destruct k as [|k].
    - apply (dominated (1 / h n) (1 / h 0%nat) (d n) (d 0%nat) (d 1%nat) (I n) (I 0%nat)); [|apply M; lia|apply M; lia]. rewrite <- E. pose proof (Hh n). pose proof (Hh 0%nat). field. split; lra.
    - apply (dominated (1 / h k) (1 / h (S k)) (d k) (d (S k)) (d (S (S k))) (I k) (I (S k))); [|apply M; lia|].
      + rewrite <- (T k). pose proof (Hh k). pose proof (Hh (S k)). field. split; lra.
      + destruct (Nat.eq_dec (S k) n) as [X|X]; [|apply M; lia]. rewrite X, C. rewrite <- X. apply M. lia. }
  assert (A : forall j, (j <= n)%nat -> d j == 0). { intros j Hj. specialize (M j Hj). rewrite Z in M. change (Qabs 0) with 0 in M. revert M. apply Qabs_case; intros; lra. }
  split; apply A; lia.
Qed.
(** Conditions joining the first two and the last two pieces into one cubic. *)
Lemma join_left d : three_term (fun _ => 0) d -> (d 0%nat + d 1%nat) / (h 0%nat * h 0%nat) == (d 1%nat + d 2%nat) / (h 1%nat * h 1%nat) -> h 0%nat * d 2%nat == - (h 0%nat + h 1%nat) * d 1%nat.
Proof.
  intros T J. specialize (T 0%nat). pose proof (Hh 0%nat) as P0. pose proof (Hh 1%nat) as P1. set (u := h 0%nat) in *. set (v := h 1%nat) in *. set (a := d 0%nat) in *. set (b := d 1%nat) in *. set (c := d 2%nat) in *.
  assert (J' : (a + b) * (v * v) == (b + c) * (u * u)). { assert (X : (a + b) * (v * v) == ((a + b) / (u * u)) * (u * u * (v * v))) by (field; lra). rewrite X, J. field. lra. }
  assert (T' : a * v + 2 * (u + v) * b + c * u == 0). { assert (X : a * v + 2 * (u + v) * b + c * u == (a / u + 2 * (1 / u + 1 / v) * b + c / v) * (u * v)) by (field; lra). rewrite X, T. ring. }
  assert (F : (u + v) * (u * c + (u + v) * b) == 0). { assert (X : (u + v) * (u * c + (u + v) * b) == v * (a * v + 2 * (u + v) * b + c * u) - ((a + b) * (v * v) - (b + c) * (u * u))) by ring. rewrite X, T', J'. ring. }
  destruct (Qmult_integral _ _ F); lra.
Qed.
Lemma join_right d k : three_term (fun _ => 0) d -> (d k + d (S k)) / (h k * h k) == (d (S k) + d (S (S k))) / (h (S k) * h (S k)) -> h (S k) * d k == - (h k + h (S k)) * d (S k).
Proof.
  intros T J. specialize (T k). pose proof (Hh k) as P0. pose proof (Hh (S k)) as P1. set (u := h k) in *. set (v := h (S k)) in *. set (a := d k) in *. set (b := d (S k)) in *. set (c := d (S (S k))) in *.
  assert (J' : (a + b) * (v * v) == (b + c) * (u * u)). { assert (X : (a + b) * (v * v) == ((a + b) / (u * u)) * (u * u * (v * v))) by (field; lra). rewrite X, J. field. lra. }
  assert (T' : a * v + 2 * (u + v) * b + c * u == 0). { assert (X : a * v + 2 * (u + v) * b + c * u == (a / u + 2 * (1 / u + 1 / v) * b + c / v) * (u * v)) by (field; lra). rewrite X, T. ring. }
  assert (F : (u + v) * (v * a + (u + v) * b) == 0). { assert (X : (u + v) * (v * a + (u + v) * b) == u * (a * v + 2 * (u + v) * b + c * u) + ((a + b) * (v * v) - (b + c) * (u * u))) by ring. rewrite X, T', J'. ring. }
  destruct (Qmult_integral _ _ F); lra.
Qed.
Lemma grows d : three_term (fun _ => 0) d -> forall i, 0 < d 1%nat -> d 2%nat < - d 1%nat ->
  (0 < d (S i) /\ d (S (S i)) < - d (S i)) \/ (d (S i) < 0 /\ - d (S i) < d (S (S i))).
Proof.
  intros T i A B. induction i as [|i IH]; [left; auto|]. pose proof (T (S i)) as E. pose proof (Hh (S i)) as P. pose proof (Hh (S (S i))) as P'.
  set (u := h (S i)) in *. set (v := h (S (S i))) in *. set (a := d (S i)) in *. set (b := d (S (S i))) in *. set (c := d (S (S (S i)))) in *.
  assert (E' : u * c == - (v * a) - 2 * (u + v) * b). { assert (X : u * c == (a / u + 2 * (1 / u + 1 / v) * b + c / v) * (u * v) - v * a - 2 * (u + v) * b) by (field; lra). rewrite X, E. ring. }
  clearbody u v a b c. destruct IH as [[X Y]|[X Y]]; [right|left]; (split; [lra|]); apply (Qmult_lt_l _ _ u P); nra.
Qed.
Lemma three_neg d : three_term (fun _ => 0) d -> three_term (fun _ => 0) (fun k => - d k).
Proof. intros T k. pose proof (T k) as E. pose proof (Hh k). pose proof (Hh (S k)). assert (X : - d k / h k + 2 * (1 / h k + 1 / h (S k)) * - d (S k) + - d (S (S k)) / h (S k) == - (d k / h k + 2 * (1 / h k + 1 / h (S k)) * d (S k) + d (S (S k)) / h (S k))) by (field; lra). rewrite X, E. ring. Qed.
Lemma joined_pos d n : three_term (fun _ => 0) d -> h 0%nat * d 2%nat == - (h 0%nat + h 1%nat) * d 1%nat ->
  h (S (S n)) * d (S n) == - (h (S n) + h (S (S n))) * d (S (S n)) -> ~ 0 < d 1%nat.
Proof.
  intros T L R P. pose proof (Hh 0%nat) as P0. pose proof (Hh 1%nat) as P1. pose proof (Hh (S n)) as P2. pose proof (Hh (S (S n))) as P3.
  assert (Q2 : d 2%nat < - d 1%nat) by (apply (Qmult_lt_l _ _ (h 0%nat) P0); nra). destruct (grows d T n P Q2) as [[A B]|[A B]]; nra.
Qed.
Lemma joined_zero d n : three_term (fun _ => 0) d -> (d 0%nat + d 1%nat) / (h 0%nat * h 0%nat) == (d 1%nat + d 2%nat) / (h 1%nat * h 1%nat) ->
  (d (S n) + d (S (S n))) / (h (S n) * h (S n)) == (d (S (S n)) + d (S (S (S n)))) / (h (S (S n)) * h (S (S n))) -> d 0%nat == 0 /\ d 1%nat == 0.
Proof.
  intros T L R. apply (join_left d T) in L. apply (join_right d (S n) T) in R.
  assert (Z : d 1%nat == 0).
  { destruct (Qlt_le_dec 0 (d 1%nat)) as [P|P]; [exfalso; apply (joined_pos d n T L R P)|]. destruct (Qlt_le_dec (d 1%nat) 0) as [P'|P']; [|lra].
    exfalso. apply (joined_pos (fun k => - d k) n (three_neg d T)); lra. }
  split; [|exact Z]. rewrite Z in L. pose proof (T 0%nat) as E. pose proof (Hh 0%nat) as P0. pose proof (Hh 1%nat) as P1.
  assert (Z2 : d 2%nat == 0). { assert (F : h 0%nat * d 2%nat == 0) by lra. destruct (Qmult_integral _ _ F); lra. }
  rewrite Z, Z2 in E. assert (X : d 0%nat == (d 0%nat / h 0%nat + 2 * (1 / h 0%nat + 1 / h 1%nat) * 0 + 0 / h 1%nat) * h 0%nat) by (field; lra). rewrite X, E. ring.
Qed.
End bvp.

(** Lengths of the pieces, positive also past the end. *)
Definition gap (bs : list Q) (i : nat) : Q := if (S i <? List.length bs)%nat then nth (S i) bs 0 - nth i bs 0 else 1.
Lemma gap_pos bs : spaced bs -> forall i, 0 < gap bs i.
Proof. intros Sp i. unfold gap. destruct (Nat.ltb_spec (S i) (List.length bs)); [apply spaced_pos; auto|lra]. Qed.
Lemma gap_at bs i : (S i < List.length bs)%nat -> gap bs i = nth (S i) bs 0 - nth i bs 0.
Proof. intros Hi. unfold gap. destruct (Nat.ltb_spec (S i) (List.length bs)); [reflexivity|lia]. Qed.

(** Slopes at the samples give the coefficients. *)
Lemma from_slopes bs y d : spaced bs -> let h := gap bs in let sl := fun i => (y (S i) - y i) / h i in
  three_term h (fun i => 3 * (sl (i - 1)%nat / h (i - 1)%nat + sl i / h i)) d ->
  let x := spread (fun i => (d i, (3 * sl i - 2 * d i - d (S i)) / h i, (d i + d (S i) - 2 * sl i) / (h i * h i))) in
  forall i, (S i < List.length bs)%nat -> segment_equations bs y x i.
Proof.
  intros Sp h sl D x i Hi. pose proof (gap_pos bs Sp) as Hp. unfold segment_equations. cbv zeta. rewrite <- (gap_at bs i Hi). fold h. fold h in Hp. unfold x. set (l := fun i => _). destruct (spread_at l i) as (-> & -> & ->). pose proof (Hp i) as P. split.
  - unfold l, sl. cbn [fst snd]. field. lra.
  - intros Hi2. destruct (spread_at l (S i)) as (-> & -> & _). unfold l. cbn [fst snd]. pose proof (Hp (S i)) as P'. split; [field; lra|].
    specialize (D i). cbv beta in D. replace (S i - 1)%nat with i in D by lia.
    assert (X : 2 * ((3 * sl i - 2 * d i - d (S i)) / h i) + 6 * h i * ((d i + d (S i) - 2 * sl i) / (h i * h i)) == 2 * (d i / h i + 2 * d (S i) / h i - 3 * (sl i / h i))) by (field; lra). rewrite X.
    assert (Y : 2 * ((3 * sl (S i) - 2 * d (S i) - d (S (S i))) / h (S i)) == 2 * (3 * (sl (S i) / h (S i)) - 2 * d (S i) / h (S i) - d (S (S i)) / h (S i))) by (field; lra). rewrite Y.
    assert (Z : d i / h i + 2 * d (S i) / h i + 2 * d (S i) / h (S i) + d (S (S i)) / h (S i) == 3 * (sl i / h i + sl (S i) / h (S i))) by (rewrite <- D; field; split; lra). lra.
Qed.
Lemma free_exists bs y periodic : spaced bs -> (3 <= List.length bs)%nat -> exists x, solves (free_system bs y periodic) x.
Proof.
  intros Sp L. pose proof (gap_pos bs Sp) as Hp. set (h := gap bs) in *. set (sl := fun i => (y (S i) - y i) / h i).
  set (w := fun i => 3 * (sl (i - 1)%nat / h (i - 1)%nat + sl i / h i)). set (k := (List.length bs - 2)%nat).
  assert (Ek : nth (List.length bs - 1) bs 0 - nth k bs 0 = h k) by (unfold h; rewrite (gap_at bs k) by (unfold k; lia); replace (List.length bs - 1)%nat with (S k) by (unfold k; lia); reflexivity).
  set (l := fun d : nat -> Q => fun i => (d i, (3 * sl i - 2 * d i - d (S i)) / h i, (d i + d (S i) - 2 * sl i) / (h i * h i))).
  assert (B : forall d, three_term h w d -> forall i, (S i < List.length bs)%nat -> segment_equations bs y (spread (l d)) i) by (intros d T; apply (from_slopes bs y d Sp T)).
  assert (A0 : forall d, spread (l d) 0%nat = d 0%nat /\ spread (l d) 1%nat = (3 * sl 0%nat - 2 * d 0%nat - d 1%nat) / h 0%nat /\ spread (l d) 2%nat = (d 0%nat + d 1%nat - 2 * sl 0%nat) / (h 0%nat * h 0%nat)) by (intros d; apply (spread_at (l d) 0)).
  destruct periodic; [|destruct (Nat.ltb_spec 3 (List.length bs)) as [L3|L3]].
  - destruct (bvp_exists h Hp w [(S k, 1); (0%nat, -(1))] [(k, 1 / h k); (S k, 2 / h k); (0%nat, 2 / h 0%nat); (1%nat, 1 / h 0%nat)] 0 (3 * (sl k / h k + sl 0%nat / h 0%nat))) as (d & T & E1 & E2).
    { intros d T E1 E2. cbn [ev] in E1, E2. pose proof (Hp 0%nat). pose proof (Hp k). assert (C : d (S k) == d 0%nat) by lra. apply (cyclic_zero h Hp k d T C); [|unfold k; lia]. rewrite C in E2. rewrite <- E2. field. split; lra. }
    exists (spread (l d)). apply free_ok; [auto|]. split; [apply B, T|]. cbv zeta. fold k. rewrite Ek. cbn [ev] in E1, E2. pose proof (Hp 0%nat). pose proof (Hp k). assert (C : d (S k) == d 0%nat) by lra.
    destruct (spread_at (l d) k) as (-> & -> & ->). destruct (A0 d) as (-> & -> & _). unfold l. cbn [fst snd]. split; [rewrite <- C; field; lra|]. rewrite C in *.
    assert (X : 2 * ((3 * sl k - 2 * d k - d 0%nat) / h k) + 6 * h k * ((d k + d 0%nat - 2 * sl k) / (h k * h k)) == 2 * (1 / h k * d k + (2 / h k * d 0%nat + (2 / h 0%nat * d 0%nat + (1 / h 0%nat * d 1%nat + 0)))) - 6 * (sl k / h k) - 4 / h 0%nat * d 0%nat - 2 / h 0%nat * d 1%nat) by (field; split; lra). rewrite X, E2. field. split; lra.
  - destruct (bvp_exists h Hp w [(0%nat, 1 / (h 0%nat * h 0%nat)); (1%nat, 1 / (h 0%nat * h 0%nat)); (1%nat, - (1) / (h 1%nat * h 1%nat)); (2%nat, -(1) / (h 1%nat * h 1%nat))]
      [((k - 1)%nat, 1 / (h (k - 1)%nat * h (k - 1)%nat)); (k, 1 / (h (k - 1)%nat * h (k - 1)%nat)); (k, - (1) / (h k * h k)); (S k, -(1) / (h k * h k))]
      (2 * sl 0%nat / (h 0%nat * h 0%nat) - 2 * sl 1%nat / (h 1%nat * h 1%nat)) (2 * sl (k - 1)%nat / (h (k - 1)%nat * h (k - 1)%nat) - 2 * sl k / (h k * h k))) as (d & T & E1 & E2).
    { intros d T E1 E2. cbn [ev] in E1, E2. set (n := (k - 2)%nat). assert (K : k = S (S n)) by (unfold n, k; lia). rewrite K in E2. replace (S (S n) - 1)%nat with (S n) in E2 by lia.
      pose proof (Hp 0%nat). pose proof (Hp 1%nat). pose proof (Hp (S n)). pose proof (Hp (S (S n))). apply (joined_zero h Hp d n T).
      - assert (X : (d 0%nat + d 1%nat) / (h 0%nat * h 0%nat) == (d 1%nat + d 2%nat) / (h 1%nat * h 1%nat) + (1 / (h 0%nat * h 0%nat) * d 0%nat + (1 / (h 0%nat * h 0%nat) * d 1%nat + (- (1) / (h 1%nat * h 1%nat) * d 1%nat + (- (1) / (h 1%nat * h 1%nat) * d 2%nat + 0))))) by (field; split; lra). rewrite X, E1. ring.
      - set (a := h (S n)) in *. set (b := h (S (S n))) in *. assert (X : (d (S n) + d (S (S n))) / (a * a) == (d (S (S n)) + d (S (S (S n)))) / (b * b) + (1 / (a * a) * d (S n) + (1 / (a * a) * d (S (S n)) + (- (1) / (b * b) * d (S (S n)) + (- (1) / (b * b) * d (S (S (S n))) + 0))))) by (field; split; lra). rewrite X, E2. ring. }
    exists (spread (l d)). apply free_ok; [auto|]. split; [apply B, T|]. cbv zeta. fold k. rewrite (proj2 (Nat.ltb_lt 3 _) L3). cbn [ev] in E1, E2. pose proof (Hp 0%nat). pose proof (Hp 1%nat). pose proof (Hp k). pose proof (Hp (k - 1)%nat).
    destruct (A0 d) as (_ & _ & ->). destruct (spread_at (l d) 1) as (_ & _ & X1). change (3 * 1 + 2)%nat with 5%nat in X1. rewrite X1. destruct (spread_at (l d) k) as (_ & _ & ->). destruct (spread_at (l d) (k - 1)) as (_ & _ & ->). unfold l. cbn [fst snd].
    assert (Ks : S (k - 1) = k) by (unfold k; lia). rewrite Ks. split.
    + assert (X : (d 0%nat + d 1%nat - 2 * sl 0%nat) / (h 0%nat * h 0%nat) == (d 1%nat + d 2%nat) / (h 1%nat * h 1%nat) - 2 * sl 0%nat / (h 0%nat * h 0%nat) + (1 / (h 0%nat * h 0%nat) * d 0%nat + (1 / (h 0%nat * h 0%nat) * d 1%nat + (- (1) / (h 1%nat * h 1%nat) * d 1%nat + (- (1) / (h 1%nat * h 1%nat) * d 2%nat + 0))))) by (field; split; lra). rewrite X, E1. field. split; lra.
    + set (a := h (k - 1)%nat) in *. set (b := h k) in *. assert (X : (d (k - 1)%nat + d k - 2 * sl (k - 1)%nat) / (a * a) == (d k + d (S k)) / (b * b) - 2 * sl (k - 1)%nat / (a * a) + (1 / (a * a) * d (k - 1)%nat + (1 / (a * a) * d k + (- (1) / (b * b) * d k + (- (1) / (b * b) * d (S k) + 0))))) by (field; split; lra). rewrite X, E2. field. split; lra.
  - assert (L' : List.length bs = 3%nat) by lia. pose proof (Hp 0%nat) as P0. pose proof (Hp 1%nat) as P1. set (c := (sl 1%nat - sl 0%nat) / (h 0%nat + h 1%nat)). set (a := sl 0%nat - c * h 0%nat).
    exists (fun j => nth j [a; c; 0; a + 2 * h 0%nat * c; c; 0] 0). apply free_ok; [auto|]. split.
    + intros i Hi. unfold segment_equations. cbv zeta. rewrite <- (gap_at bs i Hi). fold h. rewrite L' in *. assert (i = 0 \/ i = 1)%nat as [-> | ->] by lia; cbn [nth Nat.mul Nat.add].
      * split; [|intros _; split; ring]. unfold a, sl. field. lra.
      * split; [|lia]. unfold a, c, sl. field. repeat split; lra.
    + cbv zeta. rewrite L'. cbn. split; reflexivity.
Qed.

(** Uniqueness. *)
Lemma three_zero h d : (forall i, 0 < h i) -> three_term h (fun _ => 0) d -> d 0%nat == 0 -> d 1%nat == 0 -> forall k, d k == 0.
Proof.
  intros Hh T A B k. assert (X : d k == 0 /\ d (S k) == 0); [|apply X]. induction k as [|k [C D]]; [auto|]. split; [exact D|]. pose proof (T k) as E. pose proof (Hh k). pose proof (Hh (S k)). rewrite C, D in E.
  assert (X : d (S (S k)) == (0 / h k + 2 * (1 / h k + 1 / h (S k)) * 0 + d (S (S k)) / h (S k)) * h (S k)) by (field; split; lra). rewrite X, E. ring.
Qed.
Lemma clamped_zero h d : (forall i, 0 < h i) -> three_term h (fun _ => 0) d -> d 0%nat == 0 -> 0 < d 1%nat -> forall k, (d k <= 0 /\ - d k < d (S k)) \/ (0 <= d k /\ d (S k) < - d k).
Proof.
  intros Hh T A B k. induction k as [|i IH]; [left; lra|]. pose proof (T i) as E. pose proof (Hh i) as P. pose proof (Hh (S i)) as P'.
  set (u := h i) in *. set (v := h (S i)) in *. set (a := d i) in *. set (b := d (S i)) in *. set (c := d (S (S i))) in *.
  assert (E' : u * c == - (v * a) - 2 * (u + v) * b). { assert (X : u * c == (a / u + 2 * (1 / u + 1 / v) * b + c / v) * (u * v) - v * a - 2 * (u + v) * b) by (field; lra). rewrite X, E. ring. }
  clearbody u v a b c. destruct IH as [[X Y]|[X Y]]; [right|left]; (split; [lra|]); apply (Qmult_lt_l _ _ u P); nra.
Qed.
Lemma slopes_of bs x : spaced bs -> (2 <= List.length bs)%nat -> (forall i, (S i < List.length bs)%nat -> segment_equations bs (fun _ => 0) x i) ->
  exists d, three_term (gap bs) (fun _ => 0) d /\ forall i, (S i < List.length bs)%nat -> let h := gap bs i in
    x (3 * i)%nat == d i /\ x (3 * i + 1)%nat == (- (2) * d i - d (S i)) / h /\ x (3 * i + 2)%nat == (d i + d (S i)) / (h * h).
Proof.
  intros Sp L S0. pose proof (gap_pos bs Sp) as Hp. set (h := gap bs) in *.
  set (sl := fun i => x (3 * i)%nat + 2 * h i * x (3 * i + 1)%nat + 3 * h i * h i * x (3 * i + 2)%nat).
  set (d := dd h (fun _ => 0) (x 0%nat) (sl 0%nat)). pose proof (dd_solves h Hp (fun _ => 0) (x 0%nat) (sl 0%nat)) as T. fold d in T. exists d. split; [exact T|].
  assert (C : forall i a b, (S i < List.length bs)%nat -> x (3 * i)%nat == a -> sl i == b -> x (3 * i + 1)%nat == (- (2) * a - b) / h i /\ x (3 * i + 2)%nat == (a + b) / (h i * h i)).
  { intros i a b Hi Ea Eb. destruct (S0 i Hi) as [E _]. rewrite <- (gap_at bs i Hi) in E. fold h in E. unfold sl in Eb. pose proof (Hp i) as P. rewrite <- Ea, <- Eb. set (u := x (3 * i)%nat) in *. set (v := x (3 * i + 1)%nat) in *. set (z := x (3 * i + 2)%nat) in *. set (g := h i) in *.
    assert (E1 : u == - (g * v) - g * g * z). { assert (X : g * (u + g * v + g * g * z) == 0) by (rewrite <- (Qplus_opp_r 0); rewrite <- E; ring). destruct (Qmult_integral _ _ X) as [F|F]; lra. }
    split; rewrite E1; field; lra. }
  assert (K : forall i, (S i < List.length bs)%nat -> x (3 * i)%nat == d i /\ sl i == d (S i)).
  { induction i as [|i IH]; intros Hi; [split; reflexivity|]. destruct (IH ltac:(lia)) as [A B]. destruct (C i _ _ ltac:(lia) A B) as [C1 C2]. destruct (S0 i ltac:(lia)) as [_ J]. specialize (J Hi). rewrite <- (gap_at bs i) in J by lia. fold h in J. destruct J as [J1 J2]. fold (sl i) in J1. split; [rewrite <- J1; exact B|].
    destruct (S0 (S i) Hi) as [E _]. rewrite <- (gap_at bs (S i) Hi) in E. fold h in E. unfold sl at 1. specialize (T i). cbv beta in T. pose proof (Hp i) as P. pose proof (Hp (S i)) as P'. rewrite B in J1. rewrite C1, C2 in J2. rewrite <- J1 in E. rewrite <- J1.
    set (u := x (3 * S i + 1)%nat) in *. set (z := x (3 * S i + 2)%nat) in *. set (g := h (S i)) in *. set (e := h i) in *. set (p := d i) in *. set (q := d (S i)) in *. set (r := d (S (S i))) in *.
    assert (Eu : u == (p + 2 * q) / e) by (assert (X : 2 * u == 2 * ((p + 2 * q) / e)) by (rewrite <- J2; field; lra); lra).
    assert (Ez : g * g * z == - q - g * u). { assert (X : g * (q + g * u + g * g * z) == 0) by (rewrite <- (Qplus_opp_r 0); rewrite <- E; ring). destruct (Qmult_integral _ _ X) as [F|F]; lra. }
    assert (Er : r == - (g / e) * p - 2 * (g / e + 1) * q). { assert (X : r == (p / e + 2 * (1 / e + 1 / g) * q + r / g) * g - (g / e) * p - 2 * (g / e + 1) * q) by (field; lra). rewrite X, T. ring. }
    assert (X : q + 2 * g * u + 3 * g * g * z == - (2) * q - g * u) by (assert (3 * g * g * z == 3 * (g * g * z)) by ring; lra). rewrite X, Er, Eu. field. lra. }
  intros i Hi. destruct (K i Hi) as [A B]. destruct (C i _ _ Hi A B). auto.
Qed.
Definition differ (x x' : nat -> Q) (j : nat) : Q := x j - x' j.
Lemma segment_differ bs y x x' i : segment_equations bs y x i -> segment_equations bs y x' i -> segment_equations bs (fun _ => 0) (differ x x') i.
Proof.
  unfold segment_equations, differ. cbv zeta. set (dt := nth (S i) bs 0 - nth i bs 0). intros [A B] [A' B']. split; [|intros Hi; destruct (B Hi) as [B1 B2]; destruct (B' Hi) as [B1' B2']; split].
  - transitivity ((y (S i) - y i) - (y (S i) - y i)); [rewrite <- A at 1; rewrite <- A'; ring|ring].
  - rewrite <- B1, <- B1'. ring.
  - transitivity (2 * x (3 * S i + 1)%nat - 2 * x' (3 * S i + 1)%nat); [rewrite <- B2, <- B2'; ring|ring].
Qed.
Lemma slopes_vanish bs x d : spaced bs -> (2 <= List.length bs)%nat -> three_term (gap bs) (fun _ => 0) d -> d 0%nat == 0 -> d 1%nat == 0 ->
  (forall i, (S i < List.length bs)%nat -> let h := gap bs i in x (3 * i)%nat == d i /\ x (3 * i + 1)%nat == (- (2) * d i - d (S i)) / h /\ x (3 * i + 2)%nat == (d i + d (S i)) / (h * h)) ->
  forall j, (j < 3 * (List.length bs - 1))%nat -> x j == 0.
Proof.
  intros Sp L T D0 D1 E j Hj. pose proof (gap_pos bs Sp) as Hp. pose proof (three_zero _ d Hp T D0 D1) as Z. set (i := (j / 3)%nat). pose proof (Nat.div_mod j 3 ltac:(lia)) as J. pose proof (Nat.mod_upper_bound j 3 ltac:(lia)) as M. fold i in J. clearbody i. assert (Hi : (S i < List.length bs)%nat) by lia.
  destruct (E i Hi) as (E1 & E2 & E3). pose proof (Hp i) as P. assert (F : (j = 3 * i \/ j = 3 * i + 1 \/ j = 3 * i + 2)%nat) by lia; clear J M; destruct F as [-> | [-> | ->]]; [rewrite E1; apply Z|rewrite E2, !Z; field; lra|rewrite E3, !Z; field; lra].
Qed.
Lemma clamped_unique bs y a b x x' : spaced bs -> (2 <= List.length bs)%nat -> solves (clamped_system bs y a b) x -> solves (clamped_system bs y a b) x' -> forall j, (j < 3 * (List.length bs - 1))%nat -> x j == x' j.
Proof.
  intros Sp L S1 S2 j Hj. apply clamped_ok in S1; [|auto]. apply clamped_ok in S2; [|auto]. destruct S1 as (A & A0 & A1). destruct S2 as (B & B0 & B1). cbv zeta in A1, B1. set (k := (List.length bs - 2)%nat) in *. replace (List.length bs - 1)%nat with (S k) in A1, B1 by (unfold k; lia).
  rewrite <- (gap_at bs k) in A1, B1 by (unfold k; lia). pose proof (gap_pos bs Sp) as Hp.
  destruct (slopes_of bs (differ x x') Sp L) as (d & T & E). { intros i Hi. apply (segment_differ bs y); auto. }
  assert (Z : differ x x' j == 0); [|unfold differ in Z; lra]. destruct (E 0%nat ltac:(lia)) as (E0 & _). destruct (E k ltac:(unfold k; lia)) as (K0 & K1 & K2). cbv zeta in *. cbn [Nat.mul] in E0. unfold differ in E0. pose proof (Hp k) as P.
  assert (D0 : d 0%nat == 0) by (rewrite <- E0, A0, B0; ring).
  assert (Dk : d (S k) == 0).
  { unfold differ in K0, K1, K2. set (g := gap bs k) in *. assert (X : d (S k) == d k + 2 * g * ((- (2) * d k - d (S k)) / g) + 3 * g * g * ((d k + d (S k)) / (g * g))) by (field; lra). rewrite X, <- K1, <- K2, <- K0.
    transitivity (b - b); [rewrite <- A1 at 1; rewrite <- B1; ring|ring]. }
  apply (slopes_vanish bs _ d Sp L T D0); auto.
  destruct (Qlt_le_dec 0 (d 1%nat)) as [Q1|Q1]; [exfalso; destruct (clamped_zero _ d Hp T D0 Q1 k) as [[F G]|[F G]]; lra|].
  destruct (Qlt_le_dec (d 1%nat) 0) as [Q2|Q2]; [|lra]. exfalso. destruct (clamped_zero _ (fun k => - d k) Hp (three_neg _ Hp d T) ltac:(cbv beta; lra) ltac:(cbv beta; lra) k) as [[F G]|[F G]]; lra.
Qed.
Lemma free_unique bs y periodic x x' : spaced bs -> (3 <= List.length bs)%nat -> solves (free_system bs y periodic) x -> solves (free_system bs y periodic) x' -> forall j, (j < 3 * (List.length bs - 1))%nat -> x j == x' j.
Proof.
  intros Sp L S1 S2 j Hj. apply free_ok in S1; [|auto]. apply free_ok in S2; [|auto]. destruct S1 as (A & A1). destruct S2 as (B & B1). cbv zeta in A1, B1. set (k := (List.length bs - 2)%nat) in *. replace (List.length bs - 1)%nat with (S k) in A1, B1 by (unfold k; lia).
  rewrite <- (gap_at bs k) in A1, B1 by (unfold k; lia). pose proof (gap_pos bs Sp) as Hp.
  destruct (slopes_of bs (differ x x') Sp ltac:(lia)) as (d & T & E). { intros i Hi. apply (segment_differ bs y); auto. }
  assert (Z : differ x x' j == 0); [|unfold differ in Z; lra].
  destruct (E 0%nat ltac:(lia)) as (E0 & E1 & E2). destruct (E 1%nat ltac:(lia)) as (F0 & F1 & F2). destruct (E k ltac:(unfold k; lia)) as (K0 & K1 & K2). cbv zeta in *. cbn [Nat.mul Nat.add] in E0, E1, E2, F0, F1, F2. unfold differ in E0, E1, E2, F0, F1, F2, K0, K1, K2. pose proof (Hp k) as P. pose proof (Hp 0%nat) as P0. pose proof (Hp 1%nat) as P1.
  assert (D : d 0%nat == 0 /\ d 1%nat == 0); [|destruct D; apply (slopes_vanish bs _ d Sp ltac:(lia) T); auto].
  destruct periodic; [|destruct (Nat.ltb_spec 3 (List.length bs)) as [L3|L3]].
  - destruct A1 as [A1 A2]. destruct B1 as [B1 B2]. set (g := gap bs k) in *.
    assert (C : d (S k) == d 0%nat).
    { assert (X : d (S k) == d k + 2 * g * ((- (2) * d k - d (S k)) / g) + 3 * g * g * ((d k + d (S k)) / (g * g))) by (field; lra). rewrite X, <- K1, <- K2, <- K0, <- E0, <- A1, <- B1. ring. }
    apply (cyclic_zero _ Hp k d T C); [|unfold k; lia]. rewrite C in K1, K2. fold g.
    assert (X : d k / g + 2 * (1 / g + 1 / gap bs 0) * d 0%nat + d 1%nat / gap bs 0 == ((- (2) * d k - d 0%nat) / g + 3 * g * ((d k + d 0%nat) / (g * g))) - (- (2) * d 0%nat - d 1%nat) / gap bs 0) by (field; lra). rewrite X, <- K1, <- K2, <- E1.
    assert (2 * x (3 * k + 1)%nat + 6 * g * x (3 * k + 2)%nat - (2 * x' (3 * k + 1)%nat + 6 * g * x' (3 * k + 2)%nat) == 2 * x 1%nat - 2 * x' 1%nat) by (rewrite A2, B2; ring).
    assert (Y : 2 * (x (3 * k + 1)%nat - x' (3 * k + 1)%nat + 3 * g * (x (3 * k + 2)%nat - x' (3 * k + 2)%nat)) == 2 * x (3 * k + 1)%nat + 6 * g * x (3 * k + 2)%nat - (2 * x' (3 * k + 1)%nat + 6 * g * x' (3 * k + 2)%nat)) by ring. lra.
  - destruct A1 as [A1 A2]. destruct B1 as [B1 B2]. destruct (E (k - 1)%nat ltac:(unfold k; lia)) as (_ & _ & G2). cbv zeta in G2. unfold differ in G2. set (n := (k - 2)%nat). assert (K : k = S (S n)) by (unfold n, k; lia).
    apply (joined_zero _ Hp d n T); [rewrite <- E2, <- F2; lra|]. replace (k - 1)%nat with (S n) in * by lia. rewrite K in *. rewrite <- G2, <- K2. lra.
  - assert (L' : List.length bs = 3%nat) by lia. destruct A1 as [A1 A2]. destruct B1 as [B1 B2]. rewrite A1, B1 in E2. rewrite A2, B2 in F2. set (u := gap bs 0) in *. set (v := gap bs 1) in *.
    assert (X1 : d 0%nat + d 1%nat == 0). { assert (X : d 0%nat + d 1%nat == (d 0%nat + d 1%nat) / (u * u) * (u * u)) by (field; lra). rewrite X, <- E2. ring. }
    assert (X2 : d 1%nat + d 2%nat == 0). { assert (X : d 1%nat + d 2%nat == (d 1%nat + d 2%nat) / (v * v) * (v * v)) by (field; lra). rewrite X, <- F2. ring. }
    pose proof (T 0%nat) as T0. fold u v in T0. assert (X : d 1%nat / u + d 1%nat / v == d 0%nat / u + 2 * (1 / u + 1 / v) * d 1%nat + d 2%nat / v). { assert (d 0%nat == - d 1%nat) as -> by lra. assert (d 2%nat == - d 1%nat) as -> by lra. field. lra. }
    rewrite T0 in X. assert (Y : (u + v) * d 1%nat == (d 1%nat / u + d 1%nat / v) * (u * v)) by (field; lra). rewrite X in Y. assert (Y' : (u + v) * d 1%nat == 0) by lra. destruct (Qmult_integral _ _ Y'); lra.
Qed.
