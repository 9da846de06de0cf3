(** What the loops that sample lanes do when they work on doubles. *)
From Coq Require Import List Bool ZArith Lia.
From Coq Require Import Floats.SpecFloat.
From Verif Require Import Base Binary64 Binary64_Round Binary64_Order Doubles_Model Doubles_Spec Doubles_Proofs Doubles_Proofs3 Doubles_Proofs4 Doubles_Proofs5 Doubles_Props Doubles_Props2.
Import ListNotations.
Local Open Scope Z_scope.

(** * C103: sampling loops *)

(** While the ends are below 2^52 steps away from zero a sampling loop ends, after at most twice the turns that exact
    arithmetic needs and one; it starts at its first argument and its samples never pass the end; each is one step,
    up to a rounding error of the ends, from the one before, so that no place of the interval is farther than a
    step and that error from a sample before it. *)
Theorem sampling_loop_ends :
  forall B s step to,
    is_double s -> is_double step -> is_double to -> 0 < val step -> Z.abs (val s) <= B -> Z.abs (val to) <= B ->
    B + val step <= 2 ^ 52 * val step -> 2 * (B + val step) <= top ->
    exists l e n,
      Z.of_nat n * val step <= Z.max 0 (2 * (val to - val s) + val step) /\
      (forall fuel, (n < fuel)%nat -> loop fuel s step to = Some (l, e)) /\ (List.length l <= n)%nat /\
      (val s <= val to -> exists t, l = s :: t) /\
      (forall x, In x l -> is_double x /\ val s <= val x <= val to) /\ is_double e /\ val to < val e /\
      (forall x y, neighbours (l ++ [e])%list x y -> 2 ^ 53 * Z.abs (val y - (val x + val step)) <= B + val step) /\
      (forall p, val s <= p <= val to -> exists x, In x l /\ val x <= p /\ 2 ^ 53 * (p - (val x + val step)) < B + val step).
Proof.
  intros B s step to S ST TO P BS BT H T. set (n := Z.to_nat (2 * (val to - val s) / val step + 1)).
  assert (N : Z.of_nat n * val step <= Z.max 0 (2 * (val to - val s) + val step) /\ 2 * (val to - val s) < Z.of_nat n * val step).
  { unfold n. pose proof (Z.mul_div_le (2 * (val to - val s)) (val step) P). pose proof (Z.mul_succ_div_gt (2 * (val to - val s)) (val step) P). destruct (Z_lt_le_dec (val to) (val s)) as [G|G].
    - assert (2 * (val to - val s) / val step < 0) by (apply Z.div_lt_upper_bound; lia). replace (Z.to_nat (2 * (val to - val s) / val step + 1)) with 0%nat by lia. lia.
    - pose proof (Z.div_pos (2 * (val to - val s)) (val step) ltac:(lia) P). rewrite Z2Nat.id by lia. lia. }
  destruct N as [N1 N2]. destruct (loop_runs B step to ST TO P BT H T n s S BS N2) as (l & e & R & LN & DE & GE & IN & (t & HD) & NB & EM). exists l, e, n.
  split; [exact N1|]. split; [exact R|]. split; [exact LN|]. split. { intros L. destruct l as [|x l]; [specialize (EM eq_refl); lia|]. cbn in HD. inversion HD; subst. eexists; reflexivity. }
  split; [exact IN|]. split; [exact DE|]. split; [exact GE|]. split; [exact NB|].
  intros p L. destruct (crossed l e s t p HD ltac:(lia) ltac:(lia)) as (y & z & I & NE & V). exists y. split; [exact I|]. split; [lia|]. specialize (NB y z NE). lia.
Qed.
Print Assumptions sampling_loop_ends.
Definition half : double := fdiv (fint 1) (fint 2).
Example sampling_ex :
  loop 10 fzero half (fint 2) = Some ([fzero; half; fint 1; fadd (fint 1) half; fint 2], fadd (fint 2) half) /\
  is_double half /\ val (fint 2) + val half <= 2 ^ 52 * val half /\ 2 * (val (fint 2) + val half) <= top.
Proof. parts; (vm_compute; first [reflexivity|discriminate]). Qed.
(** Finding: a loop that starts beyond 2^53 steps from zero never ends although its step is positive: the sum is
    rounded back to where it was. *)
Theorem sampling_loop_ends_refuted :
  exists s step to, is_double s /\ is_double step /\ is_double to /\ 0 < val step /\ val s <= val to /\ forall fuel, loop fuel s step to = None.
Proof.
  exists (fint (2 ^ 53)), (fint 1), (fint (2 ^ 53 + 8)). assert (E : fadd (fint (2 ^ 53)) (fint 1) = fint (2 ^ 53)) by (vm_compute; reflexivity). assert (L : fle (fint (2 ^ 53)) (fint (2 ^ 53 + 8)) = true) by (vm_compute; reflexivity).
  parts; try (vm_compute; first [reflexivity|discriminate]). induction fuel as [|fuel IH]; [reflexivity|]. cbn [loop]. rewrite L, E, IH. reflexivity.
Qed.
Print Assumptions sampling_loop_ends_refuted.
(** Finding: KDTreeStrategy takes its step as it comes. With step zero the loop along any lane does not end,
    and with a step that is not a number it ends after the first sample. *)
Theorem sampling_step_zero :
  forall to, is_double to -> 0 <= val to -> (forall fuel, loop fuel fzero fzero to = None) /\ loop 2 fzero fnan to = Some ([fzero], fnan).
Proof.
  intros to TO P. pose proof zero_double as Z0. assert (L : fle fzero to = true) by (rewrite fle_val by assumption; apply Z.leb_le, P). split.
  - induction fuel as [|fuel IH]; [reflexivity|]. cbn [loop]. rewrite L. change (fadd fzero fzero) with fzero. rewrite IH. reflexivity.
  - cbn [loop]. rewrite L. change (fadd fzero fnan) with fnan. destruct to; reflexivity.
Qed.
Print Assumptions sampling_step_zero.
Example step_zero_ex : is_double (fint 100) /\ 0 <= val (fint 100). Proof. parts; (vm_compute; first [reflexivity|discriminate]). Qed.

(** SampleAheadWaypoints along ranges travelled forwards: the loops end; every sample lies on its range, up to a
    rounding error at its beginning and never before s = 0; and along the path, counted from its beginning,
    consecutive samples are one sampling rate apart up to a rounding error that grows with the number of ranges, also
    across the ranges.  What is left at the end is minus the distance from the last sample to the end. *)
Theorem waypoints_rounded :
  forall B rate ranges,
    is_double rate -> 0 < val rate -> 0 <= B -> 16 * (B + 8 * val rate) <= 2 ^ 53 * val rate -> 4 * (B + 8 * val rate) <= top ->
    (forall r, In r ranges -> range_double r /\ val (s0 r) <= val (s1 r) <= B) ->
    Z.of_nat (List.length ranges) * (8 * (B + 8 * val rate)) <= 2 ^ 53 * val rate ->
    let E := (1 + Z.of_nat (List.length ranges)) * (8 * (B + 8 * val rate)) in
    exists ll n left, (forall fuel, (n < fuel)%nat -> ahead fuel ranges rate fzero = Some (ll, left)) /\
      Forall2 (fun r l => forall x, In x l -> is_double x /\ val x <= val (s1 r) /\ 2 ^ 53 * (val (s0 r) - val x) <= E /\ (val (s0 r) = 0 -> 0 <= val x)) ranges ll /\
      (forall p q, neighbours (0 :: places 0 ranges ll) p q -> 2 ^ 53 * Z.abs (q - p - val rate) <= E) /\
      (exists w q, (0 :: places 0 ranges ll = w ++ [q])%list /\ 2 ^ 53 * Z.abs (val left + (path_length ranges - q)) <= E).
Proof.
  intros B rate ranges R P B0 H T OK KC E. destruct (ahead_runs B rate R P H T B0 ranges 0 0 fzero zero_double ltac:(change (val fzero) with 0; lia) ltac:(lia) ltac:(lia) ltac:(change (val fzero) with 0; lia) ltac:(rewrite Z.add_0_l; exact KC) OK) as (ll & n & d' & A & D & F & N & (w & q & W & L)).
  assert (EE : 8 * (B + 8 * val rate) <= E). { subst E. rewrite <- (Z.mul_1_l (8 * (B + 8 * val rate))) at 1. apply Z.mul_le_mono_nonneg_r; lia. }
  exists ll, n, d'. split; [exact A|]. split. { clearbody E. clear - F EE B0 P. induction F as [|r l rs ls X F IH]; constructor; [|exact IH]. intros x I. destruct (X x I) as (X1 & X2 & X3 & X4). repeat split; try apply X1; auto. lia. }
  split. { intros p p' NE. apply N. exact NE. }
  exists w, q. split; [exact W|]. subst E. lia.
Qed.
Print Assumptions waypoints_rounded.
Example waypoints_ex :
  ahead 10 [mk_srange fzero (fadd (fint 2) half); mk_srange (fint 1) (fint 3)] (fint 1) fzero =
    Some ([[fint 1; fint 2]; [fadd (fint 1) half; fadd (fint 2) half]], fneg half) /\
  range_double (mk_srange (fint 1) (fint 3)) /\ 16 * (val (fint 3) + 8 * val (fint 1)) <= 2 ^ 53 * val (fint 1) /\
  places 0 [mk_srange fzero (fadd (fint 2) half); mk_srange (fint 1) (fint 3)] [[fint 1; fint 2]; [fadd (fint 1) half; fadd (fint 2) half]] = [val (fint 1); val (fint 2); val (fint 3); val (fint 4)].
Proof. parts; (vm_compute; first [reflexivity|discriminate]). Qed.
