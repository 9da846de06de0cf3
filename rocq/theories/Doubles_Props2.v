(** What validators and ranges of s decide when they work on doubles. *)
From Coq Require Import List Bool ZArith Lia.
From Coq Require Import Floats.SpecFloat.
From Verif Require Import Base Binary64 Binary64_Round Binary64_Order Doubles_Model Doubles_Spec Doubles_Proofs Doubles_Proofs2 Doubles_Props.
Import ListNotations.
Local Open Scope Z_scope.
Ltac parts := unfold range_double; repeat match goal with |- _ /\ _ => refine (conj _ _) | |- is_double _ => refine (conj _ _) | |- _ <= _ <= _ => refine (conj _ _) end.

(** * C101: range validators *)

(** What a validator returns is a double in [min, max]; it never rejects what is exactly within the tolerance and
    accepts nothing beyond a rounding error of it; it leaves alone what is exactly within the shrunk range; and
    its clamp is well defined when the shrunk range is not empty in exact arithmetic. *)
Theorem validator_rounded :
  forall relative mn mx tol eps v,
    is_double mn -> is_double mx -> is_double tol -> is_double eps -> RangeValidator relative mn mx tol eps = Ok v ->
    exists e, is_double e /\ 0 <= val e <= val tol /\ (relative = false -> e = eps) /\ 0 < val tol /\
      forall s, is_double s ->
        match validate v s with
        | Ok r => nearly_within s mn mx tol /\ is_double r /\ val mn <= val r <= val mx /\
                  (val mn + val e <= val s <= val mx - val e -> r = s) /\
                  (r <> s -> val s < val r /\ 2 ^ 53 * Z.abs (val r - (val mn + val e)) <= Z.abs (val mn + val e) \/
                             val r < val s /\ 2 ^ 53 * Z.abs (val r - (val mx - val e)) <= Z.abs (val mx - val e))
        | Throw => ~ within s mn mx tol
        | UB => val mx - val mn < 2 * val e
        end.
Proof.
  intros relative mn mx tol eps v A B T E H. destruct (validator_built relative mn mx tol eps v A B T E H) as (e & -> & D & P & TP & R & D1 & D2 & E1 & E2 & L & U). exists e. split; [exact D|]. split; [exact P|]. split; [exact R|]. split; [exact TP|].
  intros s S. destruct (within_range s mn mx tol S A B T) as [W1 W2]. unfold IsWithinRange in W1, W2. unfold validate, throw_unless. cbn [v_min v_max v_tol v_eps]. pose proof (rnd_near (val mn + val e)) as N1. pose proof (rnd_near (val mx - val e)) as N2. rewrite <- E1 in N1. rewrite <- E2 in N2. clear H E.
  assert (K : val mn + val e <= val s <= val mx - val e -> val (fadd mn e) <= val s <= val (fsub mx e)). { intros K. rewrite E1, E2. split; [apply rnd_le|apply rnd_ge]; try apply val_repr, S; lia. }
  assert (M : 2 * val e <= val mx - val mn -> val (fadd mn e) <= val (fsub mx e)). { intros M. rewrite E1, E2. apply rnd_mono. lia. }
  destruct (fle (fsub mn tol) s); [|cbn [andb] in W1; intros W; discriminate (W1 W)]. destruct (fle s (fadd mx tol)); [|cbn [andb] in W1; intros W; discriminate (W1 W)].
  unfold clamp. rewrite (flt_val (fsub mx e) (fadd mn e)) by assumption. destruct (Z.ltb_spec (val (fsub mx e)) (val (fadd mn e))); [lia|].
  split; [apply W2; reflexivity|]. rewrite !flt_val by assumption. destruct (Z.ltb_spec (val s) (val (fadd mn e))); [split; [exact D1|]; split; [lia|]; split; [intros Q; specialize (K Q); lia|intros _; left; split; [lia|exact N1]]|].
  destruct (Z.ltb_spec (val (fsub mx e)) (val s)); [split; [exact D2|]; split; [lia|]; split; [intros Q; specialize (K Q); lia|intros _; right; split; [lia|exact N2]]|].
  split; [exact S|]. split; [lia|]. split; [reflexivity|congruence].
Qed.
Print Assumptions validator_rounded.
(** A validator never lets what is not a number through. *)
Theorem validator_rejects_nan : forall v, validate v fnan = Throw.
Proof. intros v. unfold validate, throw_unless. destruct (fsub (v_min v) (v_tol v)); reflexivity. Qed.
Print Assumptions validator_rejects_nan.
Definition thousandth : double := fdiv (fint 1) (fint 1000).
Definition tiny : double := fdiv (fint 1) (fint 100000000000000).
Example validator_ex :
  exists v, RangeValidator true fzero (fint 100) thousandth tiny = Ok v /\ is_double thousandth /\ is_double tiny /\
    validate v (fint 50) = Ok (fint 50) /\ validate v (fint 101) = Throw /\
    (exists r, validate v (fadd (fint 100) (fdiv thousandth (fint 2))) = Ok r /\ r <> fint 100 /\ val r < val (fint 100)).
Proof. eexists. split; [vm_compute; reflexivity|]. parts; try match goal with |- exists _, _ => fail 1 | |- _ => vm_compute; reflexivity end. eexists. parts; [vm_compute; reflexivity|vm_compute; discriminate|vm_compute; reflexivity]. Qed.
(** Finding: the range the validator promises to clamp into is open, (min, max), but a positive absolute epsilon below
    half a rounding step of the end is lost: on [0, 1000] with epsilon 1e-14 the value 1000 is returned as it is. *)
Theorem open_range_refuted :
  exists mn mx tol eps v s, is_double mn /\ is_double mx /\ is_double tol /\ is_double eps /\ 0 < val eps /\
    RangeValidator false mn mx tol eps = Ok v /\ validate v s = Ok mx.
Proof.
  exists fzero, (fint 1000), thousandth, tiny. exists (mk_validator fzero (fint 1000) thousandth tiny). exists (fint 1000). parts; (vm_compute; first [reflexivity|discriminate]).
Qed.
Print Assumptions open_range_refuted.
(** Finding: a range narrower than two epsilons is accepted, and calling the validator then inverts the bounds of
    std::clamp, which is undefined. *)
Theorem clamp_defined_refuted :
  exists mn mx tol eps v s, is_double mn /\ is_double mx /\ is_double tol /\ is_double eps /\ is_double s /\
    RangeValidator false mn mx tol eps = Ok v /\ val mn <= val s <= val mx /\ validate v s = UB.
Proof.
  exists fzero, (fint 3), (fint 2), (fint 2). exists (mk_validator fzero (fint 3) (fint 2) (fint 2)). exists (fint 1). parts; (vm_compute; first [reflexivity|discriminate]).
Qed.
Print Assumptions clamp_defined_refuted.

(** * C102: ranges of s *)

(** Ranges that meet in exact arithmetic, after widening by the tolerance, are never reported apart; ranges reported
    to meet are apart by no more than a rounding error.  Containment likewise. *)
Theorem ranges_rounded :
  forall a b tol, range_double a -> range_double b -> is_double tol -> 0 <= val tol ->
    exists i c, Intersects a b tol = Ok i /\ SRange_Contains a b tol = Ok c /\
      (low a - val tol <= high b -> low b <= high a + val tol -> i = true) /\
      (i = true -> 2 ^ 53 * (low a - val tol - high b) <= Z.abs (low a - val tol) /\ 2 ^ 53 * (low b - (high a + val tol)) <= high a + val tol) /\
      (low a - val tol <= low b -> high b <= high a + val tol -> c = true) /\
      (c = true -> 2 ^ 53 * (low a - val tol - low b) <= Z.abs (low a - val tol) /\ 2 ^ 53 * (high b - (high a + val tol)) <= high a + val tol) /\
      (c = true -> i = true).
Proof.
  intros a b tol RA RB T P. destruct (intersects_rnd a b tol RA RB T P) as (i & I & IH). destruct (contains_rnd a b tol RA RB T P) as (c & C & CH). exists i, c. split; [exact I|]. split; [exact C|].
  destruct (ranges_low a RA) as (D1 & V1 & L1), (ranges_high a RA) as (D2 & V2 & L2), (ranges_low b RB) as (D3 & V3 & L3), (ranges_high b RB) as (D4 & V4 & L4).
  assert (R3 : repr (low b)) by (rewrite <- V3; apply val_repr, D3). assert (R4 : repr (high b)) by (rewrite <- V4; apply val_repr, D4).
  pose proof (Z.abs_eq (high a + val tol) ltac:(lia)) as AB.
  split; [intros X Y; apply IH; split; [apply rnd_le; assumption|apply rnd_ge; assumption]|].
  split; [intros X; apply IH in X; destruct X as [X Y]; split; [apply near_le, X|rewrite <- AB at 2; apply near_ge, Y]|].
  split; [intros X Y; apply CH; split; [apply rnd_le; assumption|apply rnd_ge; assumption]|].
  split; [intros X; apply CH in X; destruct X as [X Y]; split; [apply near_le, X|rewrite <- AB at 2; apply near_ge, Y]|].
  rewrite CH, IH. lia.
Qed.
Print Assumptions ranges_rounded.
(** Every range contains and intersects itself, in either direction. *)
Theorem range_self :
  forall a tol, range_double a -> is_double tol -> 0 <= val tol -> Intersects a a tol = Ok true /\ SRange_Contains a a tol = Ok true.
Proof.
  intros a tol RA T P. destruct (ranges_rounded a a tol RA RA T P) as (i & c & I & C & X & _ & Y & _). destruct (ranges_high a RA) as (_ & _ & L). rewrite I, C, X, Y by lia. split; reflexivity.
Qed.
Print Assumptions range_self.
(** With no tolerance nothing is rounded: the answers and the intersection are exact. *)
Theorem ranges_exact :
  forall a b tol, range_double a -> range_double b -> is_double tol -> val tol = 0 ->
    exists i c g, Intersects a b tol = Ok i /\ SRange_Contains a b tol = Ok c /\ SRange_GetIntersection a b tol = Ok g /\
      (i = true <-> exists s, low a <= s <= high a /\ low b <= s <= high b) /\
      (c = true <-> forall s, low b <= s <= high b -> low a <= s <= high a) /\
      match g with
      | None => i = false
      | Some r => i = true /\ range_double r /\ val (s0 r) <= val (s1 r) /\ forall s, low r <= s <= high r <-> low a <= s <= high a /\ low b <= s <= high b
      end.
Proof.
  intros a b tol RA RB T P. destruct (intersects_rnd a b tol RA RB T ltac:(lia)) as (i & I & IH). destruct (contains_rnd a b tol RA RB T ltac:(lia)) as (c & C & CH).
  destruct (ranges_low a RA) as (D1 & V1 & L1), (ranges_high a RA) as (D2 & V2 & L2), (ranges_low b RB) as (D3 & V3 & L3), (ranges_high b RB) as (D4 & V4 & L4).
  assert (R1 : rnd (low a) = low a) by (apply rnd_repr; rewrite <- V1; apply val_repr, D1). assert (R2 : rnd (high a) = high a) by (apply rnd_repr; rewrite <- V2; apply val_repr, D2).
  rewrite P, Z.sub_0_r, Z.add_0_r, R1, R2 in IH, CH. destruct (floor_double _ tol D1 T ltac:(lia) ltac:(lia)) as [F E]. rewrite P, V1, Z.sub_0_r, R1 in E.
  assert (W : is_double (fadd (fmax (s0 a) (s1 a)) tol) /\ val (fadd (fmax (s0 a) (s1 a)) tol) = high a). { pose proof (fadd_small _ _ D2 T) as Q. rewrite P, V2, Z.add_0_r, R2 in Q. apply Q. rewrite <- V2. apply val_repr, D2. }
  destruct W as [WD WV].
  assert (G : exists g, SRange_GetIntersection a b tol = Ok g /\ match g with None => i = false | Some r => i = true /\ range_double r /\ val (s0 r) <= val (s1 r) /\ low r = Z.max (low a) (low b) /\ high r = Z.min (high a) (high b) end).
  { unfold SRange_GetIntersection. rewrite I. cbn [obind]. destruct i; [|eexists; split; [reflexivity|reflexivity]]. destruct (proj1 IH eq_refl) as [X Y]. rewrite wider_ok by (assumption || lia). cbn [obind s0 s1].
    rewrite (fle_val (fadd (fmax (s0 a) (s1 a)) tol)) by assumption. rewrite (fle_val (fmin (s0 b) (s1 b))) by assumption. rewrite WV, V4, V3, E.
    match goal with |- context [SRange ?u ?v] => set (mn := u); set (mx := v) end.
    assert (M1 : is_double mn /\ val mn = Z.max (low a) (low b)). { subst mn. destruct (Z.leb_spec (low b) (Z.max (low a) 0)); [split; [exact D1|lia]|split; [exact D3|lia]]. }
    assert (M2 : is_double mx /\ val mx = Z.min (high a) (high b)). { subst mx. destruct (Z.leb_spec (high a) (high b)); [split; [exact D2|lia]|split; [exact D4|lia]]. }
    clearbody mn mx. destruct M1 as [M1 M1'], M2 as [M2 M2']. pose proof zero_double as Z0. unfold SRange, throw_unless. rewrite !fle_val by assumption. change (val fzero) with 0. rewrite !(proj2 (Z.leb_le 0 _)) by lia. cbn [omap]. eexists; split; [reflexivity|]. split; [reflexivity|]. unfold range_double, low, high. cbn [s0 s1]. repeat split; try apply M1; try apply M2; try lia; unfold low, high in *; lia. }
  destruct G as (g & G & GH). exists i, c, g. split; [exact I|]. split; [exact C|]. split; [exact G|]. split; [|split].
  - rewrite IH. split; [intros [X Y]; exists (Z.max (low a) (low b)); lia|intros (s & X & Y); lia].
  - rewrite CH. split; [intros [X Y] s Z; lia|intros X; pose proof (X (low b) ltac:(lia)); pose proof (X (high b) ltac:(lia)); lia].
  - destruct g as [r|]; [|exact GH]. destruct GH as (X & RR & O & LR & HR). split; [exact X|]. split; [exact RR|]. split; [exact O|]. intros s. rewrite LR, HR. lia.
Qed.
Print Assumptions ranges_exact.
Definition rng (a b : double) : srange := mk_srange a b.
Example ranges_ex :
  range_double (rng (fint 4) (fint 1)) /\ range_double (rng (fint 3) (fint 9)) /\
  Intersects (rng (fint 4) (fint 1)) (rng (fint 3) (fint 9)) fzero = Ok true /\ SRange_Contains (rng (fint 4) (fint 1)) (rng (fint 3) (fint 9)) fzero = Ok false /\
  SRange_GetIntersection (rng (fint 4) (fint 1)) (rng (fint 3) (fint 9)) fzero = Ok (Some (rng (fint 3) (fint 4))) /\
  Intersects (rng (fint 4) (fint 1)) (rng (fint 5) (fint 9)) hundredth = Ok false /\ Intersects (rng (fint 4) (fint 1)) (rng (fint 5) (fint 9)) (fint 1) = Ok true.
Proof. parts; (vm_compute; first [reflexivity|discriminate]). Qed.
(** Finding: with a tolerance the answer depends on which range is asked. [0, 0.3] meets [1, 2] within 0.7, but
    [1, 2] does not meet [0, 0.3]: 0.3 + 0.7 rounds up to 1 and 1 - 0.7 is above 0.3. *)
Theorem intersects_symmetric_refuted :
  exists a b tol, range_double a /\ range_double b /\ is_double tol /\ 0 < val tol /\ Intersects a b tol = Ok true /\ Intersects b a tol = Ok false.
Proof. exists (rng fzero third_), (rng (fint 1) (fint 2)), seventh_. parts; (vm_compute; first [reflexivity|discriminate]). Qed.
Print Assumptions intersects_symmetric_refuted.
