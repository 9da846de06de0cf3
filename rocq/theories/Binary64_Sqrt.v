(** Square roots of doubles that are not negative. *)
From Coq Require Import ZArith Lia Bool.
From Coq Require Import Floats.SpecFloat.
From Verif Require Import Binary64 Binary64_Round Binary64_Order Binary64_Ext.
Local Open Scope Z_scope.

Lemma shr_1_m R : 0 <= shr_m R -> shr_m (shr_1 R) = shr_m R / 2.
Proof.
  destruct R as [m r s]. cbn [shr_m]. intros M. destruct m as [|p|p]; [reflexivity| |lia]. destruct p as [p|p|]; cbn [shr_1 shr_m]; [| |reflexivity].
  - change (Zpos p~1) with (2 * Zpos p + 1). rewrite Z.mul_comm, Z.div_add_l by lia. change (1 / 2) with 0. lia.
  - change (Zpos p~0) with (2 * Zpos p). rewrite Z.mul_comm, Z.div_mul by lia. reflexivity.
Qed.
Lemma shr_iter_m k : forall R, 0 <= shr_m R -> shr_m (Nat.iter k shr_1 R) = shr_m R / 2 ^ Z.of_nat k /\ 0 <= shr_m (Nat.iter k shr_1 R).
Proof.
  induction k as [|k IH]; intros R M; [cbn [Nat.iter nat_rect]; change (2 ^ Z.of_nat 0) with 1; rewrite Z.div_1_r; auto|].
  destruct (IH R M) as (E & P). change (Nat.iter (S k) shr_1 R) with (shr_1 (Nat.iter k shr_1 R)). rewrite (shr_1_m _ P), E, pow_S, Z.div_div by (try apply Z.pow_nonzero; lia).
  rewrite (Z.mul_comm _ 2). split; [reflexivity|]. apply Z.div_pos; [exact M|]. pose proof (pow_pos (Z.of_nat k) ltac:(lia)). lia.
Qed.
Lemma record_m m l : shr_m (shr_record_of_loc m l) = m.
Proof. destruct l as [|[]]; reflexivity. Qed.
Lemma shr_m_any m e l n : 0 <= m -> 0 <= n -> shr_m (fst (shr (shr_record_of_loc m l) e n)) = m / 2 ^ n /\ snd (shr (shr_record_of_loc m l) e n) = e + n.
Proof.
  intros M N. unfold shr. destruct n as [|p|p]; [|rewrite iter_pos_nat|lia]; cbn [fst snd].
  - rewrite record_m, Z.pow_0_r, Z.div_1_r. split; [reflexivity|lia].
  - destruct (shr_iter_m (Pos.to_nat p) (shr_record_of_loc m l) ltac:(rewrite record_m; exact M)) as (E & _). rewrite record_m, positive_nat_Z in E. auto.
Qed.
Lemma nearest_even_m m l : round_nearest_even m l = m \/ round_nearest_even m l = m + 1.
Proof. destruct l as [|[]]; cbn [round_nearest_even]; [auto|destruct (Z.even m); auto|auto|auto]. Qed.

(** Rounding from any location, when no digit is missing: a double that is not negative, or infinity. *)
Lemma aux_valid m e l : 0 <= m -> e <= fexp 53 1024 (Zdigits2 m + e) ->
  number (binary_round_aux 53 1024 false m e l) /\ 0 <= place (binary_round_aux 53 1024 false m e l).
Proof.
  intros M L. unfold binary_round_aux, shr_fexp. destruct (shr_m_any m e l (fexp 53 1024 (Zdigits2 m + e) - e) M ltac:(lia)) as (E1 & E2).
  destruct (shr (shr_record_of_loc m l) e (fexp 53 1024 (Zdigits2 m + e) - e)) as [R e1] eqn:S. cbn [fst snd] in E1, E2. assert (X1 : e1 = fexp 53 1024 (Zdigits2 m + e)) by lia.
  set (m1 := round_nearest_even (shr_m R) (loc_of_shr_record R)).
  assert (B0 : 0 <= shr_m R < 2 ^ 53 /\ (-1074 < e1 -> 2 ^ 52 <= shr_m R)).
  { rewrite fexp_eq in X1. destruct (Z.eq_dec m 0) as [->|NZ].
    - rewrite E1, Z.div_0_l by (apply Z.pow_nonzero; lia). split; [split; [lia|reflexivity]|]. cbn [Zdigits2] in X1. intros C. exfalso. rewrite fexp_eq in L. cbn [Zdigits2] in L. lia.
    - assert (DZ : Zdigits2 m = digits m) by (destruct m; [congruence|apply digits_pos|lia]). rewrite DZ in *. pose proof (digits_bounds m ltac:(lia)) as D. pose proof (digits_ge1 m ltac:(lia)) as D1.
      set (n := fexp 53 1024 (digits m + e) - e) in *. assert (N0 : 0 <= n) by lia. assert (Nn : n = Z.max (digits m + e - 53) (-1074) - e) by reflexivity. clearbody n. pose proof (pow_pos n N0) as P. rewrite E1. split.
      + split; [apply Z.div_pos; lia|]. apply Z.div_lt_upper_bound; [lia|]. rewrite <- Z.pow_add_r by lia. assert (2 ^ digits m <= 2 ^ (n + 53)) by (apply pow_le; lia). lia.
      + intros C. apply Z.div_le_lower_bound; [lia|]. rewrite <- Z.pow_add_r by lia. replace (n + 52) with (digits m - 1) by lia. lia. }
  assert (B1 : 0 <= m1 <= 2 ^ 53 /\ (-1074 < e1 -> 2 ^ 52 <= m1)) by (unfold m1; destruct (nearest_even_m (shr_m R) (loc_of_shr_record R)) as [-> | ->]; lia).
  clearbody m1. assert (X : -1074 <= e1) by (rewrite X1, fexp_eq; lia). clear X1 E1 E2 S B0 L R.
  destruct (Z.eq_dec m1 0) as [->|NZ].
  { cbn [Zdigits2]. destruct (shr_m_any 0 e1 loc_Exact (Z.max 0 (fexp 53 1024 (0 + e1) - e1)) ltac:(lia) ltac:(lia)) as (F1 & F2).
    assert (e1 = -1074) by lia. subst e1. vm_compute. split; [split; [reflexivity|discriminate]|discriminate]. }
  assert (DZ : Zdigits2 m1 = digits m1) by (destruct m1; [congruence|apply digits_pos|lia]). pose proof (digits_bounds m1 ltac:(lia)) as D. pose proof (digits_ge1 m1 ltac:(lia)) as D1.
  assert (G : exists m2 e2, 0 < m2 /\ fexp 53 1024 (digits m2 + e2) = e2 /\ let r := shr (shr_record_of_loc m1 loc_Exact) e1 (fexp 53 1024 (Zdigits2 m1 + e1) - e1) in shr_m (fst r) = m2 /\ snd r = e2).
  { destruct (Z.eq_dec m1 (2 ^ 53)) as [->|N53].
    - exists (2 ^ 52), (e1 + 1). split; [lia|]. change (Zdigits2 (2 ^ 53)) with 54. change (digits (2 ^ 52)) with 53. rewrite !fexp_eq. split; [lia|]. replace (Z.max (54 + e1 - 53) (-1074) - e1) with 1 by lia. cbv zeta. rewrite (proj1 (shr_m_any (2 ^ 53) e1 loc_Exact 1 ltac:(lia) ltac:(lia))), (proj2 (shr_m_any (2 ^ 53) e1 loc_Exact 1 ltac:(lia) ltac:(lia))). split; reflexivity.
    - exists m1, e1. split; [lia|]. assert (DU : digits m1 <= 53) by (apply digits_le; lia). assert (FX : fexp 53 1024 (digits m1 + e1) = e1).
      { rewrite fexp_eq. destruct (Z.eq_dec e1 (-1074)) as [->|NE]; [lia|]. assert (52 < digits m1). { destruct (Z_lt_le_dec 52 (digits m1)) as [Q|Q]; [exact Q|]. assert (2 ^ digits m1 <= 2 ^ 52) by (apply pow_le; lia). lia. } lia. }
      split; [exact FX|]. rewrite DZ, FX, Z.sub_diag. cbv zeta. rewrite (proj1 (shr_m_any m1 e1 loc_Exact 0 ltac:(lia) ltac:(lia))), (proj2 (shr_m_any m1 e1 loc_Exact 0 ltac:(lia) ltac:(lia))), Z.pow_0_r, Z.div_1_r. split; [reflexivity|lia]. }
  destruct G as (m2 & e2 & P2 & C2 & F1 & F2). destruct (shr (shr_record_of_loc m1 loc_Exact) e1 (fexp 53 1024 (Zdigits2 m1 + e1) - e1)) as [R2 e2']. cbn [fst snd] in F1, F2. rewrite F1, F2. destruct m2 as [|q|q]; [lia| |lia].
  change (1024 - 53) with 971. destruct (Z.leb_spec e2 971) as [LE|GT].
  - pose proof (canonical_valid false q e2 C2 LE) as V. split; [split; [exact V|discriminate]|]. cbn [place val]. rewrite fexp_eq in C2. pose proof (pow_pos (e2 + 1074) ltac:(lia)). lia.
  - split; [split; [reflexivity|discriminate]|]. cbn [place]. pose proof top_pos. lia.
Qed.

Lemma fsqrt_number x : number x -> 0 <= place x -> number (fsqrt x) /\ 0 <= place (fsqrt x).
Proof.
  intros N P. pose proof top_pos as T. destruct x as [s|[]| |[] p e].
  - split; [exact N|exact P].
  - cbn [place] in P. lia.
  - split; [exact N|exact P].
  - destruct N as [_ N]. congruence.
  - exfalso. cbn [place val] in P. destruct N as [V _]. apply valid_canonical in V. pose proof (pow_pos (e + 1074) ltac:(lia)). lia.
  - unfold fsqrt. cbn [SFsqrt]. unfold SFsqrt_core_binary. set (d := Zdigits2 (Zpos p)). set (e' := Z.min (fexp 53 1024 (Z.div2 (d + e + 1))) (Z.div2 e)).
  assert (Dd : d = digits (Zpos p)) by apply digits_pos. pose proof (digits_bounds (Zpos p) ltac:(lia)) as DB. pose proof (digits_ge1 (Zpos p) ltac:(lia)) as D1. rewrite <- Dd in DB, D1. clearbody d.
  pose proof (Z.div2_odd e) as OE. pose proof (Z.div2_odd (d + e + 1)) as OD. set (h := Z.div2 e) in *. set (k := Z.div2 (d + e + 1)) in *. clearbody h k.
  assert (O1 : 0 <= Z.b2z (Z.odd e) <= 1) by (destruct (Z.odd e); cbn; lia). assert (O2 : 0 <= Z.b2z (Z.odd (d + e + 1)) <= 1) by (destruct (Z.odd (d + e + 1)); cbn; lia).
  set (s := e - 2 * e') in *. assert (S0 : 0 <= s) by (unfold s, e'; lia).
  assert (Sm : match s with 0 => Zpos p | Zpos _ => Z.shiftl (Zpos p) s | Zneg _ => 0 end = Zpos p * 2 ^ s) by (destruct s; [rewrite Z.pow_0_r; lia|apply Z.shiftl_mul_pow2; lia|lia]).
  rewrite Sm. pose proof (Z.sqrtrem_spec (Zpos p * 2 ^ s) ltac:(pose proof (pow_pos s S0); lia)) as SQ. destruct (Z.sqrtrem (Zpos p * 2 ^ s)) as [q r]. destruct SQ as (SE & SR).
  assert (Q0 : 0 <= q) by lia. apply aux_valid; [exact Q0|].
  destruct (Z_lt_le_dec k (e' + 1)) as [K|K].
  { rewrite fexp_eq. assert (e' <= Z.max (k - 53) (-1074)) by (unfold e'; rewrite fexp_eq; lia). lia. }
  assert (LB : 2 ^ (k - 1 - e') <= q).
  { assert (A : 2 ^ (k - 1 - e') * 2 ^ (k - 1 - e') <= Zpos p * 2 ^ s).
    { rewrite <- Z.pow_add_r by lia. apply Z.le_trans with (2 ^ (d - 1) * 2 ^ s); [|apply Z.mul_le_mono_nonneg_r; [pose proof (pow_pos s S0); lia|lia]].
      rewrite <- Z.pow_add_r by lia. apply pow_le. unfold s. lia. }
    pose proof (pow_pos (k - 1 - e') ltac:(lia)). destruct (Z_lt_le_dec q (2 ^ (k - 1 - e'))) as [C|C]; [|exact C]. exfalso. nia. }
  assert (QP : 0 < q) by (pose proof (pow_pos (k - 1 - e') ltac:(lia)); lia).
  assert (DQ : Zdigits2 q = digits q) by (destruct q; [lia|apply digits_pos|lia]). rewrite DQ. pose proof (digits_bounds q QP) as B. pose proof (digits_ge1 q QP).
  assert (k - e' <= digits q). { destruct (Z_lt_le_dec (digits q) (k - e')) as [C|C]; [|exact C]. exfalso. assert (2 ^ digits q <= 2 ^ (k - 1 - e')) by (apply pow_le; lia). lia. }
  rewrite fexp_eq. assert (e' <= Z.max (k - 53) (-1074)) by (unfold e'; rewrite fexp_eq; lia). lia.
Qed.
