(** Lemmas about the validator, ranges and sampling loops on doubles. *)
From Coq Require Import List Bool ZArith Lia.
From Coq Require Import Floats.SpecFloat.
From Verif Require Import Base Binary64 Binary64_Round Binary64_Order Doubles_Model Doubles_Spec Doubles_Proofs.
Import ListNotations.
Local Open Scope Z_scope.

(** A number between two doubles is finite. *)
Lemma between_double v r a b : result v r -> is_double a -> is_double b -> fle a r = true -> fle r b = true -> is_double r /\ val r = v /\ val a <= v <= val b.
Proof.
  intros R A B L H. pose proof (proj1 (fle_result_r v r a R A) L) as L'. pose proof (proj1 (fle_result_l v r b R B) H) as H'. pose proof (proj2 (val_repr a A)). pose proof (proj2 (val_repr b B)).
  destruct (result_cases v r R) as [(D & E & _)|[(_ & C)|(_ & C)]]; try lia. auto.
Qed.
(** The epsilon of a validator is a double. *)
Lemma epsilon_double relative mn mx tol eps : is_double mn -> is_double mx -> is_double tol -> is_double eps ->
  let e := if relative : bool then fmul (fsub mx mn) eps else eps in fle fzero e = true -> fle e tol = true -> is_double e /\ 0 <= val e <= val tol.
Proof.
  intros A B T E e L H. pose proof zero_double as Z0. assert (D : is_double e).
  { subst e. destruct relative; [|exact E]. destruct (result_cases _ _ (fsub_spec mx mn B A)) as [(D & _)|[(I & _)|(I & _)]].
    - exact (proj1 (between_double _ _ fzero tol (fmul_spec _ _ D E) Z0 T L H)).
    - exfalso. rewrite I in L, H. destruct E as [_ E]. destruct T as [_ T]. destruct eps as [q|q| |q m x]; try discriminate; destruct q; try discriminate; destruct tol as [u|u| |u ? ?]; try discriminate; destruct u; discriminate.
    - exfalso. rewrite I in L, H. destruct E as [_ E]. destruct T as [_ T]. destruct eps as [q|q| |q m x]; try discriminate; destruct q; try discriminate; destruct tol as [u|u| |u ? ?]; try discriminate; destruct u; discriminate. }
  split; [exact D|]. rewrite fle_val in L, H by assumption. apply Z.leb_le in L, H. change (val fzero) with 0 in L. lia.
Qed.
Lemma validator_built relative mn mx tol eps v : is_double mn -> is_double mx -> is_double tol -> is_double eps -> RangeValidator relative mn mx tol eps = Ok v ->
  exists e, v = mk_validator mn mx tol e /\ is_double e /\ 0 <= val e <= val tol /\ 0 < val tol /\ (relative = false -> e = eps) /\
    is_double (fadd mn e) /\ is_double (fsub mx e) /\ val (fadd mn e) = rnd (val mn + val e) /\ val (fsub mx e) = rnd (val mx - val e) /\
    val mn <= val (fadd mn e) <= val mx /\ val mn <= val (fsub mx e) <= val mx.
Proof.
  intros A B T E. unfold RangeValidator, throw_unless. set (e := if relative then fmul (fsub mx mn) eps else eps). pose proof zero_double as Z0.
  destruct (flt fzero tol) eqn:H0; [|discriminate]. destruct (fle fzero e) eqn:H1; [|discriminate]. destruct (fle e tol) eqn:H2; [|discriminate]. destruct (fle (fadd mn e) mx) eqn:H3; [|discriminate]. destruct (fle mn (fsub mx e)) eqn:H4; [|discriminate].
  intros [= <-]. destruct (epsilon_double relative mn mx tol eps A B T E H1 H2) as (D & P). fold e in D, P. exists e. rewrite flt_val in H0 by assumption. apply Z.ltb_lt in H0. change (val fzero) with 0 in H0.
  pose proof (fadd_spec mn e A D) as RA. pose proof (fsub_spec mx e B D) as RS. pose proof (proj1 (fle_result_l _ _ mx RA B) H3) as U. pose proof (proj1 (fle_result_r _ _ mn RS A) H4) as V.
  assert (L1 : val mn <= rnd (val mn + val e)) by (apply rnd_ge; [apply val_repr, A|lia]). assert (L2 : rnd (val mx - val e) <= val mx) by (apply rnd_le; [apply val_repr, B|lia]).
  destruct (between_double _ _ mn mx RA A B (proj2 (fle_result_r _ _ mn RA A) L1) H3) as (D1 & E1 & _). destruct (between_double _ _ mn mx RS A B H4 (proj2 (fle_result_l _ _ mx RS B) L2)) as (D2 & E2 & _).
  split; [reflexivity|]. split; [exact D|]. split; [exact P|]. split; [exact H0|]. split; [subst e; destruct relative; [discriminate|reflexivity]|]. rewrite E1, E2. repeat split; auto; try apply D1; try apply D2.
Qed.

(** Ranges. *)
Lemma ranges_low r : range_double r -> is_double (fmin (s0 r) (s1 r)) /\ val (fmin (s0 r) (s1 r)) = low r /\ 0 <= low r.
Proof. intros (A & B & P & Q). destruct (fmin_val _ _ A B) as [D V]. unfold low. repeat split; try apply D; auto; lia. Qed.
Lemma ranges_high r : range_double r -> is_double (fmax (s0 r) (s1 r)) /\ val (fmax (s0 r) (s1 r)) = high r /\ low r <= high r.
Proof. intros (A & B & P & Q). destruct (fmax_val _ _ A B) as [D V]. unfold low, high. repeat split; try apply D; auto; lia. Qed.
Lemma checked_ok {A} a b tol (k : outcome A) : range_double a -> range_double b -> is_double tol -> 0 <= val tol -> checked a b tol k = k.
Proof.
  intros RA RB T P. pose proof zero_double as Z0. destruct (ranges_low a RA) as (D1 & V1 & L1), (ranges_low b RB) as (D2 & V2 & L2). unfold checked, throw_unless. rewrite !fle_val, flt_val by assumption. rewrite V1, V2. change (val fzero) with 0.
  rewrite (proj2 (Z.leb_le 0 (low a)) L1), (proj2 (Z.leb_le 0 (low b)) L2), (proj2 (Z.ltb_ge (val tol) 0) P). reflexivity.
Qed.
(** max(x - t, 0): a double, whatever overflows. *)
Lemma floor_double x t : is_double x -> is_double t -> 0 <= val x -> 0 <= val t -> is_double (fmax (fsub x t) fzero) /\ val (fmax (fsub x t) fzero) = Z.max (rnd (val x - val t)) 0.
Proof.
  intros X T P Q. pose proof zero_double as Z0. pose proof (fsub_spec x t X T) as R. pose proof (proj2 (val_repr x X)) as RX. pose proof (proj2 (val_repr t T)) as RT.
  assert (U : rnd (val x - val t) <= val x) by (apply rnd_le; [apply val_repr, X|lia]). assert (L : - val t <= rnd (val x - val t)) by (apply rnd_ge; [apply repr_opp, val_repr, T|lia]).
  destruct (result_cases _ _ R) as [(D & E & _)|[(_ & C)|(_ & C)]]; try lia. destruct (fmax_val _ _ D Z0) as [M V]. split; [exact M|]. rewrite V, E. reflexivity.
Qed.
Lemma wider_ok a tol : range_double a -> is_double tol -> 0 <= val tol ->
  SRange (fmax (fsub (fmin (s0 a) (s1 a)) tol) fzero) (fadd (fmax (s0 a) (s1 a)) tol) = Ok (mk_srange (fmax (fsub (fmin (s0 a) (s1 a)) tol) fzero) (fadd (fmax (s0 a) (s1 a)) tol)).
Proof.
  intros RA T P. pose proof zero_double as Z0. destruct (ranges_low a RA) as (D1 & V1 & L1), (ranges_high a RA) as (D2 & V2 & L2). destruct (floor_double _ tol D1 T ltac:(lia) P) as [F E].
  unfold SRange, throw_unless. rewrite fle_val by assumption. rewrite E. change (val fzero) with 0. rewrite (proj2 (Z.leb_le 0 _)) by lia. rewrite (proj2 (fle_add _ _ fzero D2 T Z0)); [reflexivity|]. change (val fzero) with 0. apply rnd_ge; [exists 0, 0; repeat split; lia|lia].
Qed.
Lemma intersects_rnd a b tol : range_double a -> range_double b -> is_double tol -> 0 <= val tol ->
  exists i, Intersects a b tol = Ok i /\ (i = true <-> rnd (low a - val tol) <= high b /\ low b <= rnd (high a + val tol)).
Proof.
  intros RA RB T P. pose proof zero_double as Z0. unfold Intersects. rewrite checked_ok, wider_ok by assumption. cbn [obind s0 s1]. eexists; split; [reflexivity|].
  destruct (ranges_low a RA) as (D1 & V1 & L1), (ranges_high a RA) as (D2 & V2 & L2), (ranges_low b RB) as (D3 & V3 & L3), (ranges_high b RB) as (D4 & V4 & L4). destruct (floor_double _ tol D1 T ltac:(lia) P) as [F E].
  rewrite negb_true_iff, orb_false_iff. rewrite flt_val by assumption. rewrite Z.ltb_ge, E, V4, V1. pose proof (flt_result_l _ _ _ (fadd_spec _ _ D2 T) D3) as H. rewrite V2, V3 in H.
  destruct (flt (fadd (fmax (s0 a) (s1 a)) tol) (fmin (s0 b) (s1 b))); [pose proof (proj1 H eq_refl); split; [intros [_ X]; discriminate|lia]|]. split; [|intros []; split; [lia|reflexivity]]. intros [X _]. split; [lia|]. destruct (Z_lt_le_dec (rnd (high a + val tol)) (low b)) as [Y|Y]; [apply H in Y; discriminate|exact Y].
Qed.
Lemma contains_rnd a b tol : range_double a -> range_double b -> is_double tol -> 0 <= val tol ->
  exists i, SRange_Contains a b tol = Ok i /\ (i = true <-> rnd (low a - val tol) <= low b /\ high b <= rnd (high a + val tol)).
Proof.
  intros RA RB T P. pose proof zero_double as Z0. unfold SRange_Contains. rewrite checked_ok by assumption. eexists; split; [reflexivity|]. destruct RA as (A1 & A2 & A3 & A4), RB as (B1 & B2 & B3 & B4).
  assert (H : forall lo hi, is_double lo -> is_double hi -> 0 <= val lo -> forall w, is_double w -> 0 <= val w -> (fle w (fadd hi tol) && fle (fmax (fsub lo tol) fzero) w = true <-> rnd (val lo - val tol) <= val w /\ val w <= rnd (val hi + val tol))).
  { intros lo hi L H PL w W PW. destruct (floor_double lo tol L T PL P) as [F E]. rewrite andb_true_iff, fle_add, fle_val, Z.leb_le, E by assumption. lia. }
  unfold WithS. rewrite flt_val by assumption. unfold low, high. destruct (Z.ltb_spec (val (s0 a)) (val (s1 a))).
  - rewrite andb_true_iff, !H by assumption. rewrite (Z.min_l (val (s0 a))), (Z.max_r (val (s0 a))) by lia. lia.
  - rewrite andb_true_iff, !H by assumption. rewrite (Z.min_r (val (s0 a))), (Z.max_l (val (s0 a))) by lia. lia.
Qed.
