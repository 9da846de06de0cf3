(** What addition, subtraction and multiplication of doubles return, in terms of integers: the value of a finite
    double is counted in units of 2^-1074.  Everything is derived from the definitions in Coq's SpecFloat. *)
From Coq Require Import ZArith Lia Bool.
From Coq Require Import Floats.SpecFloat.
From Verif Require Import Binary64.
Local Open Scope Z_scope.

(** The value of a double, in units of 2^-1074; infinities and NaN have none. *)
Definition val (x : double) : Z :=
  match x with
  | S754_finite s m e => (if s then - Zpos m else Zpos m) * 2 ^ (e + 1074)
  | _ => 0
  end.
(** Doubles as the format has them. *)
Definition valid (x : double) : Prop := valid_binary 53 1024 x = true.
Definition is_double (x : double) : Prop := valid x /\ finite x = true.

(** Integer division rounded to the nearest, ties to even. *)
Definition rne (m n : Z) : Z :=
  let f := m / 2 ^ n in
  let r := m mod 2 ^ n in
  if 2 * r <? 2 ^ n then f else if 2 * r =? 2 ^ n then (if Z.even f then f else f + 1) else f + 1.
(** Digits, and rounding of [z] units of 2^-(1074+k) to the next multiple of a power of two that leaves 53 digits. *)
Definition digits (z : Z) : Z := Z.log2 z + 1.
Definition shift (k z : Z) : Z := Z.max (digits z - 53) k.
Definition rndu (k z : Z) : Z := rne z (shift k z) * 2 ^ (shift k z - k).

(** ** Shifting *)
Lemma digits_pos p : Zpos (digits2_pos p) = digits (Zpos p).
Proof.
  unfold digits. induction p as [p IH|p IH|]; [| |reflexivity]; cbn [digits2_pos]; rewrite Pos2Z.inj_succ, IH.
  - change (Zpos p~1) with (2 * Zpos p + 1). rewrite Z.log2_succ_double by lia. lia.
  - change (Zpos p~0) with (2 * Zpos p). rewrite Z.log2_double by lia. lia.
Qed.
Lemma digits_bounds z : 0 < z -> 2 ^ (digits z - 1) <= z < 2 ^ digits z.
Proof. intros H. unfold digits. pose proof (Z.log2_spec z H) as L. replace (Z.log2 z + 1 - 1) with (Z.log2 z) by lia. replace (Z.log2 z + 1) with (Z.succ (Z.log2 z)) by lia. exact L. Qed.
Lemma digits_unique z d : 2 ^ (d - 1) <= z < 2 ^ d -> 1 <= d -> digits z = d.
Proof. intros H D. unfold digits. rewrite (Z.log2_unique z (d - 1)); [lia|lia|]. replace (Z.succ (d - 1)) with d by lia. exact H. Qed.
Lemma digits_ge1 z : 0 < z -> 1 <= digits z.
Proof. intros H. unfold digits. pose proof (Z.log2_nonneg z). lia. Qed.
Lemma digits_le z d : 0 < z -> 0 <= d -> z < 2 ^ d -> digits z <= d.
Proof. intros H D L. unfold digits. assert (Z.log2 z < d) by (apply Z.log2_lt_pow2; auto). lia. Qed.
Lemma iter_pos_nat {A} (f : A -> A) p : forall x, iter_pos f p x = Nat.iter (Pos.to_nat p) f x.
Proof.
  assert (X : forall n m x, Nat.iter n f (Nat.iter m f x) = Nat.iter (n + m) f x) by (intros n m x; induction n as [|n IH]; [reflexivity|change (f (Nat.iter n f (Nat.iter m f x)) = f (Nat.iter (n + m) f x)); now rewrite IH]).
  induction p as [p IH|p IH|]; intros x; cbn [iter_pos]; [| |reflexivity]; rewrite !IH, X.
  - change (f x) with (Nat.iter 1 f x). rewrite X. f_equal. lia.
  - f_equal. lia.
Qed.
Definition shifted (m : Z) (k : nat) (R : shr_record) : Prop :=
  exists rem, m = shr_m R * 2 ^ Z.of_nat k + rem /\ 0 <= rem < 2 ^ Z.of_nat k /\ 0 <= shr_m R /\
    ((k = 0%nat /\ shr_r R = false /\ shr_s R = false) \/
     exists j low, k = S j /\ rem = (if shr_r R then 2 ^ Z.of_nat j else 0) + low /\ 0 <= low < 2 ^ Z.of_nat j /\ (shr_s R = false <-> low = 0)).
Lemma pow_S j : 2 ^ Z.of_nat (S j) = 2 * 2 ^ Z.of_nat j.
Proof. rewrite Nat2Z.inj_succ, Z.pow_succ_r by lia. reflexivity. Qed.
Lemma shifted_step m k R : shifted m k R -> shifted m (S k) (shr_1 R).
Proof.
  intros (rem & E & B & N & C). destruct R as [M r s]. cbn [shr_m shr_r shr_s] in *.
  assert (Z0rem : r || s = false <-> rem = 0).
  { destruct C as [(-> & -> & ->)|(j & low & -> & E2 & B2 & S)]; [cbn in *; split; [intros; lia|reflexivity]|]. pose proof (Z.pow_pos_nonneg 2 (Z.of_nat j) ltac:(lia) ltac:(lia)). destruct r, s; cbn [orb]; split; intros H0; try discriminate; try reflexivity; try lia; try (exfalso; assert (L : low = 0) by lia; apply S in L; discriminate); destruct S as [S _]; specialize (S eq_refl); lia. }
  assert (X : exists b M', M = 2 * M' + Z.b2z b /\ shr_1 {| shr_m := M; shr_r := r; shr_s := s |} = {| shr_m := M'; shr_r := b; shr_s := r || s |} /\ 0 <= M').
  { cbn [shr_1]. destruct M as [|[p|p|]|p]; try lia; [exists false, 0|exists true, (Zpos p)|exists false, (Zpos p)|exists true, 0]; repeat split; cbn [Z.b2z]; lia. }
  destruct X as (b & M' & EM & -> & NM). exists (Z.b2z b * 2 ^ Z.of_nat k + rem). cbn [shr_m shr_r shr_s]. rewrite pow_S. repeat split; [rewrite E, EM; ring|destruct b; cbn [Z.b2z]; lia|destruct b; cbn [Z.b2z]; lia|exact NM|].
  right. exists k, rem. split; [reflexivity|]. split; [destruct b; cbn [Z.b2z]; lia|]. split; [exact B|exact Z0rem].
Qed.
Lemma shifted_iter m k : 0 <= m -> shifted m k (Nat.iter k shr_1 {| shr_m := m; shr_r := false; shr_s := false |}).
Proof.
  intros N. induction k as [|k IH]; [|apply shifted_step, IH]. exists 0. cbn [Nat.iter nat_rect shr_m shr_r shr_s]. change (2 ^ Z.of_nat 0) with 1. split; [lia|]. split; [lia|]. split; [lia|]. left. auto.
Qed.
Lemma shifted_rne m k R : shifted m k R -> round_nearest_even (shr_m R) (loc_of_shr_record R) = rne m (Z.of_nat k) /\ shr_m R = m / 2 ^ Z.of_nat k.
Proof.
  intros (rem & E & B & N & C). destruct R as [M r s]. cbn [shr_m shr_r shr_s] in *.
  assert (F : m / 2 ^ Z.of_nat k = M) by (symmetry; apply Z.div_unique with rem; lia).
  assert (G : m mod 2 ^ Z.of_nat k = rem) by (symmetry; apply Z.mod_unique with M; lia).
  split; [|auto]. unfold rne. rewrite F, G. destruct C as [(-> & -> & ->)|(j & low & -> & E2 & B2 & S)].
  - change (2 ^ Z.of_nat 0) with 1 in *. assert (R0 : rem = 0) by lia. rewrite R0. reflexivity.
  - rewrite pow_S in *. pose proof (Z.pow_pos_nonneg 2 (Z.of_nat j) ltac:(lia) ltac:(lia)) as P. destruct r, s; cbn [loc_of_shr_record round_nearest_even].
    + assert (low <> 0) by (intros H; apply S in H; discriminate). destruct (Z.ltb_spec (2 * rem) (2 * 2 ^ Z.of_nat j)); [lia|]. destruct (Z.eqb_spec (2 * rem) (2 * 2 ^ Z.of_nat j)); [lia|reflexivity].
    + assert (low = 0) by (apply S; reflexivity). destruct (Z.ltb_spec (2 * rem) (2 * 2 ^ Z.of_nat j)); [lia|]. destruct (Z.eqb_spec (2 * rem) (2 * 2 ^ Z.of_nat j)); [reflexivity|lia].
    + destruct (Z.ltb_spec (2 * rem) (2 * 2 ^ Z.of_nat j)); [reflexivity|lia].
    + destruct (Z.ltb_spec (2 * rem) (2 * 2 ^ Z.of_nat j)); [reflexivity|lia].
Qed.
Lemma shr_rne m e n : 0 <= m -> 0 <= n -> let '(R, e') := shr {| shr_m := m; shr_r := false; shr_s := false |} e n in
  round_nearest_even (shr_m R) (loc_of_shr_record R) = rne m n /\ e' = e + n /\ shr_m R = m / 2 ^ n.
Proof.
  intros M N. unfold shr. destruct n as [|p|p]; [|rewrite iter_pos_nat|lia].
  - pose proof (shifted_rne _ _ _ (shifted_iter m 0 M)) as X. cbn [Nat.iter nat_rect] in X. change (Z.of_nat 0) with 0 in X. split; [apply X|]. split; [lia|apply X].
  - pose proof (shifted_rne _ _ _ (shifted_iter m (Pos.to_nat p) M)) as X. rewrite positive_nat_Z in X. split; [apply X|]. split; [reflexivity|apply X].
Qed.

(** ** Facts about [rne] *)
Lemma rne_floor m n : rne m n = m / 2 ^ n \/ rne m n = m / 2 ^ n + 1.
Proof. unfold rne. destruct (_ <? _); [auto|]. destruct (_ =? _); [destruct (Z.even _); auto|auto]. Qed.
Lemma rne_near m n : 0 <= n -> 2 * Z.abs (rne m n * 2 ^ n - m) <= 2 ^ n.
Proof.
  intros N. pose proof (Z.pow_pos_nonneg 2 n ltac:(lia) N) as P. pose proof (Z.div_mod m (2 ^ n) ltac:(lia)) as E. pose proof (Z.mod_pos_bound m (2 ^ n) P) as B. unfold rne. destruct (Z.ltb_spec (2 * (m mod 2 ^ n)) (2 ^ n)); [nia|]. destruct (Z.eqb_spec (2 * (m mod 2 ^ n)) (2 ^ n)); [destruct (Z.even _); nia|nia].
Qed.
Lemma rne_exact c n : 0 <= n -> rne (c * 2 ^ n) n = c.
Proof.
  intros N. pose proof (Z.pow_pos_nonneg 2 n ltac:(lia) N) as P. unfold rne. rewrite Z.div_mul, Z.mod_mul by lia. destruct (Z.ltb_spec (2 * 0) (2 ^ n)); [reflexivity|lia].
Qed.
Lemma rne_le m n c : 0 <= n -> m <= c * 2 ^ n -> rne m n <= c.
Proof.
  intros N L. pose proof (Z.pow_pos_nonneg 2 n ltac:(lia) N) as P. pose proof (Z.div_mod m (2 ^ n) ltac:(lia)) as E. pose proof (Z.mod_pos_bound m (2 ^ n) P) as B. unfold rne. destruct (Z.ltb_spec (2 * (m mod 2 ^ n)) (2 ^ n)) as [X|X]; [nia|]. destruct (Z.eqb_spec (2 * (m mod 2 ^ n)) (2 ^ n)); [destruct (Z.even _); nia|nia].
Qed.
Lemma rne_ge m n c : 0 <= n -> c * 2 ^ n <= m -> c <= rne m n.
Proof.
  intros N L. pose proof (Z.pow_pos_nonneg 2 n ltac:(lia) N) as P. assert (c <= m / 2 ^ n) by (apply Z.div_le_lower_bound; lia). destruct (rne_floor m n); lia.
Qed.
Lemma rne_scale m a n : 0 <= a -> 0 <= n -> rne (m * 2 ^ a) (n + a) = rne m n.
Proof.
  intros A N. pose proof (Z.pow_pos_nonneg 2 n ltac:(lia) N) as P. pose proof (Z.pow_pos_nonneg 2 a ltac:(lia) A) as Q. unfold rne. rewrite Z.pow_add_r by lia. rewrite Z.div_mul_cancel_r, Zmult_mod_distr_r by lia.
  assert (X : (2 * (m mod 2 ^ n * 2 ^ a) <? 2 ^ n * 2 ^ a) = (2 * (m mod 2 ^ n) <? 2 ^ n)) by (apply eq_true_iff_eq; rewrite !Z.ltb_lt; nia).
  assert (Y : (2 * (m mod 2 ^ n * 2 ^ a) =? 2 ^ n * 2 ^ a) = (2 * (m mod 2 ^ n) =? 2 ^ n)) by (apply eq_true_iff_eq; rewrite !Z.eqb_eq; nia).
  rewrite X, Y. reflexivity.
Qed.

(** ** Rounding *)
Definition top : Z := 2 ^ 2098.
Lemma fexp_eq x : fexp 53 1024 x = Z.max (x - 53) (-1074).
Proof. reflexivity. Qed.
(** [r] is the double with the value [V], or the infinity when there is none that large. *)
Definition holds (sx : bool) (V : Z) (r : double) : Prop :=
  valid r /\ (V < top -> finite r = true /\ val r = if sx then - V else V) /\ (top <= V -> r = S754_infinity sx).
Lemma pow_le a b : 0 <= a <= b -> 2 ^ a <= 2 ^ b.
Proof. intros. apply Z.pow_le_mono_r; lia. Qed.
Lemma pow_pos a : 0 <= a -> 0 < 2 ^ a.
Proof. intros. apply Z.pow_pos_nonneg; lia. Qed.
Lemma canonical_valid s p e : fexp 53 1024 (digits (Zpos p) + e) = e -> e <= 971 -> valid (S754_finite s p e).
Proof.
  intros C L. unfold valid, valid_binary, bounded, canonical_mantissa. rewrite digits_pos, C. apply andb_true_iff. split; [apply Zeq_is_eq_bool; reflexivity|apply Zle_is_le_bool; exact L].
Qed.
Lemma valid_canonical s p e : valid (S754_finite s p e) -> fexp 53 1024 (digits (Zpos p) + e) = e /\ -1074 <= e <= 971 /\ Zpos p < 2 ^ 53 /\ (-1074 < e -> 2 ^ 52 <= Zpos p).
Proof.
  unfold valid, valid_binary, bounded, canonical_mantissa. rewrite digits_pos. intros H. apply andb_true_iff in H. destruct H as [A B]. apply Zeq_bool_eq in A. apply Zle_bool_imp_le in B. change (1024 - 53) with 971 in B. split; [exact A|]. rewrite fexp_eq in A. pose proof (digits_bounds (Zpos p) ltac:(lia)) as D. pose proof (digits_ge1 (Zpos p) ltac:(lia)) as D1. split; [lia|]. split.
  - assert (2 ^ digits (Zpos p) <= 2 ^ 53) by (apply pow_le; lia). lia.
  - intros G. assert (E : digits (Zpos p) = 53) by lia. rewrite E in D. apply D.
Qed.
Lemma aux_spec sx p e : let e' := fexp 53 1024 (digits (Zpos p) + e) in e <= e' ->
  holds sx (rne (Zpos p) (e' - e) * 2 ^ (e' + 1074)) (binary_round_aux 53 1024 sx (Zpos p) e loc_Exact).
Proof.
  intros e' L. set (m := Zpos p) in *. assert (M : 0 < m) by (unfold m; lia). pose proof (digits_bounds m M) as D. pose proof (digits_ge1 m M) as D1.
  unfold binary_round_aux, shr_fexp at 1. cbn [shr_record_of_loc]. replace (Zdigits2 m) with (digits m) by (symmetry; apply digits_pos). fold e'.
  pose proof (shr_rne m e (e' - e) ltac:(lia) ltac:(lia)) as X. destruct (shr _ e (e' - e)) as [R e1]. destruct X as (-> & -> & _). replace (e + (e' - e)) with e' by lia.
  set (q := rne m (e' - e)). assert (E' : e' = Z.max (digits m + e - 53) (-1074)) by reflexivity. clearbody e'.
  assert (Q1 : 0 <= q) by (apply rne_ge; lia).
  assert (Q2 : q <= 2 ^ 53) by (apply rne_le; [lia|]; rewrite <- Z.pow_add_r by lia; assert (2 ^ digits m <= 2 ^ (53 + (e' - e))) by (apply pow_le; lia); lia).
  assert (Q3 : -1074 < e' -> 2 ^ 52 <= q) by (intros G; apply rne_ge; [lia|]; rewrite <- Z.pow_add_r by lia; replace (52 + (e' - e)) with (digits m - 1) by lia; apply D).
  unfold shr_fexp. cbn [shr_record_of_loc]. rewrite fexp_eq. clearbody q. assert (T : top = 2 ^ 53 * 2 ^ 2045) by reflexivity. assert (T' : top = 2 ^ 52 * 2 ^ 2046) by reflexivity.
  pose proof (pow_pos (e' + 1074) ltac:(lia)) as PE.
  assert (LO : e' <= 971 -> 2 ^ (e' + 1074) <= 2 ^ 2045) by (intros; apply pow_le; lia). assert (HI : 971 < e' -> 2 ^ 2046 <= 2 ^ (e' + 1074)) by (intros; apply pow_le; lia).
  assert (HI' : 970 < e' -> 2 ^ 2045 <= 2 ^ (e' + 1074)) by (intros; apply pow_le; lia). assert (LO' : e' <= 970 -> 2 * 2 ^ (e' + 1074) <= 2 ^ 2045) by (intros; rewrite <- Z.pow_succ_r by lia; apply pow_le; lia).
  pose proof (pow_pos 2045 ltac:(lia)) as P45. pose proof (pow_pos 2046 ltac:(lia)) as P46. generalize dependent (2 ^ 2045). intros K45. generalize dependent (2 ^ 2046). intros K46. intros.
  destruct (Z.eq_dec q 0) as [Q0|NZ]; [|destruct (Z.eq_dec q (2 ^ 53)) as [Q0|NT]].
  - assert (EE : e' = -1074) by (destruct (Z.eq_dec e' (-1074)); [assumption|]; assert (2 ^ 52 <= q) by (apply Q3; lia); lia). rewrite EE, Q0. change (holds sx 0 (S754_zero sx)). split; [reflexivity|]. split; [intros; destruct sx; auto|intros; lia].
  - rewrite Q0 in *. change (Zdigits2 (2 ^ 53)) with 54. replace (Z.max (54 + e' - 53) (-1074) - e') with 1 by lia. change (shr {| shr_m := 2 ^ 53; shr_r := false; shr_s := false |} e' 1) with ({| shr_m := 2 ^ 52; shr_r := false; shr_s := false |}, e' + 1). cbn [shr_m]. change (2 ^ 52) with (Zpos 4503599627370496) at 1. cbv iota.
    change (1024 - 53) with 971. destruct (Zle_bool (e' + 1) 971) eqn:B.
    + apply Zle_bool_imp_le in B. split; [apply canonical_valid; [rewrite fexp_eq; change (digits 4503599627370496) with 53; lia|lia]|]. specialize (LO' ltac:(lia)). split; [|intros; lia]. intros _. split; [reflexivity|]. cbn [val]. replace (e' + 1 + 1074) with (Z.succ (e' + 1074)) by lia. rewrite Z.pow_succ_r by lia. destruct sx; lia.
    + assert (970 < e') by (destruct (Z_lt_le_dec 970 e'); [assumption|]; exfalso; assert (Y : (e' + 1 <=? 971) = true) by (apply Z.leb_le; lia); unfold Z.leb in *; congruence). specialize (HI' H). repeat split; intros; lia.
  - destruct q as [|qp|qp]; [lia| |lia]. replace (Zdigits2 (Z.pos qp)) with (digits (Z.pos qp)) by (symmetry; apply digits_pos). pose proof (digits_le (Z.pos qp) 53 ltac:(lia) ltac:(lia) ltac:(lia)) as DQ. pose proof (digits_ge1 (Z.pos qp) ltac:(lia)) as DQ1.
    assert (F : Z.max (digits (Z.pos qp) + e' - 53) (-1074) = e').
    { destruct (Z.eq_dec e' (-1074)) as [->|N]; [lia|]. rewrite (digits_unique (Z.pos qp) 53); [lia| |lia]. split; [apply Q3; lia|lia]. }
    replace (Z.max (digits (Z.pos qp) + e' - 53) (-1074) - e') with 0 by lia. cbn [shr shr_m]. change (1024 - 53) with 971. destruct (Zle_bool e' 971) eqn:B.
    + apply Zle_bool_imp_le in B. split; [apply canonical_valid; [exact F|exact B]|]. specialize (LO B). split; [|intros; nia]. intros _. split; [reflexivity|]. cbn [val]. destruct sx; lia.
    + assert (971 < e') by (destruct (Z_lt_le_dec 971 e'); [assumption|]; exfalso; assert (Y : (e' <=? 971) = true) by (apply Z.leb_le; lia); unfold Z.leb in *; congruence). specialize (HI H). specialize (Q3 ltac:(lia)). repeat split; intros; nia.
Qed.
Lemma digits_scale m a : 0 < m -> 0 <= a -> digits (m * 2 ^ a) = digits m + a.
Proof. intros M A. unfold digits. rewrite Z.log2_mul_pow2 by lia. lia. Qed.
Lemma aux_rndu sx p e k : 0 <= k -> -1074 - k <= e -> e <= fexp 53 1024 (digits (Zpos p) + e) ->
  holds sx (rndu k (Zpos p * 2 ^ (e + 1074 + k))) (binary_round_aux 53 1024 sx (Zpos p) e loc_Exact).
Proof.
  intros K E L. pose proof (aux_spec sx p e L) as H. cbv zeta in H. set (e' := fexp 53 1024 (digits (Zpos p) + e)) in *. assert (E' : e' = Z.max (digits (Zpos p) + e - 53) (-1074)) by reflexivity. clearbody e'.
  assert (S : shift k (Zpos p * 2 ^ (e + 1074 + k)) = (e' - e) + (e + 1074 + k)) by (unfold shift; rewrite digits_scale by lia; lia).
  unfold rndu. rewrite S, rne_scale by lia. replace (e' - e + (e + 1074 + k) - k) with (e' + 1074) by lia. exact H.
Qed.
Lemma round_rndu sx p e : -1074 <= e -> holds sx (rndu 0 (Zpos p * 2 ^ (e + 1074))) (binary_round 53 1024 sx p e).
Proof.
  intros E. unfold binary_round, shl_align. rewrite digits_pos. destruct (fexp 53 1024 (digits (Z.pos p) + e) - e) as [|d|d] eqn:D.
  - replace (e + 1074) with (e + 1074 + 0) by lia. apply aux_rndu; lia.
  - replace (e + 1074) with (e + 1074 + 0) by lia. apply aux_rndu; lia.
  - rewrite fexp_eq in *. set (e' := Z.max (digits (Z.pos p) + e - 53) (-1074)) in *. assert (Q : e = e' + Zpos d) by lia. assert (P : Zpos (shift_pos d p) = Zpos p * 2 ^ Zpos d) by (rewrite shift_pos_correct, Z.pow_pos_fold; ring).
    replace (Z.pos p * 2 ^ (e + 1074)) with (Zpos (shift_pos d p) * 2 ^ (e' + 1074 + 0)).
    + apply aux_rndu; [lia|lia|]. rewrite fexp_eq, P, digits_scale by lia. lia.
    + rewrite P. rewrite <- Z.mul_assoc, <- Z.pow_add_r by lia. f_equal. f_equal. lia.
Qed.

(** ** Facts about rounding *)
Lemma rndu_le k z c j : 0 <= k -> 0 < z -> 0 <= c < 2 ^ 53 -> 0 <= j -> z <= c * 2 ^ j * 2 ^ k -> rndu k z <= c * 2 ^ j.
Proof.
  intros K Z C J L. unfold rndu. assert (S : shift k z = Z.max (digits z - 53) k) by reflexivity. set (n := shift k z) in *. clearbody n. pose proof (digits_bounds z Z) as D. pose proof (digits_ge1 z Z).
  destruct (Z.eq_dec n k) as [->|N].
  - replace (k - k) with 0 by lia. rewrite Z.mul_1_r. apply rne_le; [lia|exact L].
  - destruct (Z_lt_le_dec (j + k) n) as [B|B].
    + exfalso. replace (digits z - 1) with (52 + n) in D by lia. rewrite <- Z.mul_assoc, <- Z.pow_add_r in L by lia. assert (2 ^ (j + k) <= 2 ^ (n - 1)) by (apply pow_le; lia). assert (2 ^ 53 * 2 ^ (n - 1) = 2 ^ (52 + n)) by (rewrite <- Z.pow_add_r by lia; f_equal; lia). pose proof (pow_pos (j + k) ltac:(lia)). nia.
    + assert (Q : c * 2 ^ j = c * 2 ^ (j + k - n) * 2 ^ (n - k)) by (rewrite <- Z.mul_assoc, <- Z.pow_add_r by lia; f_equal; f_equal; lia). rewrite Q. apply Z.mul_le_mono_nonneg_r; [apply Z.lt_le_incl, pow_pos; lia|]. apply rne_le; [lia|]. rewrite <- Z.mul_assoc, <- Z.pow_add_r by lia. replace (j + k - n + n) with (j + k) by lia. rewrite Z.pow_add_r, Z.mul_assoc by lia. exact L.
Qed.
Lemma rndu_ge k z c j : 0 <= k -> 0 < z -> 0 <= c < 2 ^ 53 -> 0 <= j -> c * 2 ^ j * 2 ^ k <= z -> c * 2 ^ j <= rndu k z.
Proof.
  intros K Z C J L. unfold rndu. assert (S : shift k z = Z.max (digits z - 53) k) by reflexivity. set (n := shift k z) in *. clearbody n. pose proof (digits_bounds z Z) as D. pose proof (digits_ge1 z Z).
  destruct (Z.eq_dec n k) as [->|N].
  - replace (k - k) with 0 by lia. rewrite Z.mul_1_r. apply rne_ge; [lia|exact L].
  - destruct (Z_lt_le_dec (j + k) n) as [B|B].
    + replace (digits z - 1) with (52 + n) in D by lia. rewrite Z.pow_add_r in D by lia. pose proof (rne_ge z n (2 ^ 52) ltac:(lia) ltac:(lia)) as G. assert (2 ^ j <= 2 ^ (n - k - 1)) by (apply pow_le; lia). assert (E : 2 ^ (n - k) = 2 * 2 ^ (n - k - 1)) by (rewrite <- Z.pow_succ_r by lia; f_equal; lia). pose proof (pow_pos j ltac:(lia)). rewrite E. assert (c * 2 ^ j <= 2 ^ 53 * 2 ^ (n - k - 1)) by (apply Z.mul_le_mono_nonneg; lia). change (2 ^ 53) with (2 ^ 52 * 2) in *. nia.
    + assert (Q : c * 2 ^ j = c * 2 ^ (j + k - n) * 2 ^ (n - k)) by (rewrite <- Z.mul_assoc, <- Z.pow_add_r by lia; f_equal; f_equal; lia). rewrite Q. apply Z.mul_le_mono_nonneg_r; [apply Z.lt_le_incl, pow_pos; lia|]. apply rne_ge; [lia|]. rewrite <- Z.mul_assoc, <- Z.pow_add_r by lia. replace (j + k - n + n) with (j + k) by lia. rewrite Z.pow_add_r, Z.mul_assoc by lia. exact L.
Qed.
Lemma rndu_near k z : 0 <= k -> 0 < z -> 2 * Z.abs (rndu k z * 2 ^ k - z) <= 2 ^ shift k z.
Proof.
  intros K Z. unfold rndu. assert (S : k <= shift k z) by (unfold shift; lia). rewrite <- Z.mul_assoc, <- Z.pow_add_r by lia. replace (shift k z - k + k) with (shift k z) by lia. apply rne_near. lia.
Qed.
Lemma rndu_near0 z : 0 < z -> 2 ^ 53 * Z.abs (rndu 0 z - z) <= z.
Proof.
  intros Z. pose proof (rndu_near 0 z ltac:(lia) Z) as H. rewrite Z.pow_0_r, Z.mul_1_r in H. unfold shift in H. pose proof (digits_bounds z Z) as D. pose proof (digits_ge1 z Z). destruct (Z_le_gt_dec (digits z - 53) 0) as [L|L].
  - replace (Z.max (digits z - 53) 0) with 0 in H by lia. rewrite Z.pow_0_r in H. lia.
  - replace (Z.max (digits z - 53) 0) with (digits z - 53) in H by lia. assert (2 ^ (digits z - 1) = 2 ^ 52 * 2 ^ (digits z - 53)) by (rewrite <- Z.pow_add_r by lia; f_equal; lia). change (2 ^ 53) with (2 ^ 52 * 2). pose proof (pow_pos 52 ltac:(lia)). nia.
Qed.
Lemma rndu_nonneg k z : 0 <= k -> 0 < z -> 0 <= rndu k z.
Proof. intros K Z. pose proof (rndu_ge k z 0 0 K Z ltac:(lia) ltac:(lia) ltac:(lia)). lia. Qed.

(** Signed rounding: of a number of units, and of a number of units of 2^-2148. *)
Definition rnd (z : Z) : Z := Z.sgn z * rndu 0 (Z.abs z).
Definition rndm (z : Z) : Z := Z.sgn z * rndu 1074 (Z.abs z).
Definition result (v : Z) (r : double) : Prop :=
  valid r /\ (Z.abs v < top -> finite r = true /\ val r = v) /\ (top <= v -> r = S754_infinity false) /\ (v <= - top -> r = S754_infinity true).
(** Numbers that doubles without a largest exponent have. *)
Definition repr (v : Z) : Prop := exists c j, v = c * 2 ^ j /\ Z.abs c < 2 ^ 53 /\ 0 <= j.
Lemma val_repr x : is_double x -> repr (val x) /\ Z.abs (val x) < top.
Proof.
  intros [V F]. destruct x as [s|s| |s p e]; try discriminate.
  - cbn [val]. split; [exists 0, 0; repeat split; lia|reflexivity].
  - apply valid_canonical in V. destruct V as (_ & E & M & _). cbn [val]. split; [exists (if s then - Zpos p else Zpos p), (e + 1074); repeat split; [destruct s; lia|lia]|].
    assert (2 ^ (e + 1074) <= 2 ^ 2045) by (apply pow_le; lia). assert (T : top = 2 ^ 53 * 2 ^ 2045) by reflexivity. pose proof (pow_pos (e + 1074) ltac:(lia)). rewrite Z.abs_mul. rewrite (Z.abs_eq (2 ^ (e + 1074))) by lia. replace (Z.abs (if s then - Z.pos p else Z.pos p)) with (Zpos p) by (destruct s; lia). rewrite T. apply Z.lt_le_trans with (2 ^ 53 * 2 ^ (e + 1074)); [apply Z.mul_lt_mono_pos_r; lia|apply Z.mul_le_mono_nonneg_l; lia].
Qed.
Lemma rnd_le z v : repr v -> z <= v -> rnd z <= v.
Proof.
  intros (c & j & -> & C & J) L. pose proof (pow_pos j J) as P. unfold rnd. destruct (Z.lt_trichotomy z 0) as [N|[->|N]].
  - rewrite Z.sgn_neg, Z.abs_neq by lia. destruct (Z_lt_le_dec c 0).
    + pose proof (rndu_ge 0 (- z) (- c) j ltac:(lia) ltac:(lia) ltac:(lia) J ltac:(rewrite Z.pow_0_r; lia)). lia.
    + pose proof (rndu_nonneg 0 (- z) ltac:(lia) ltac:(lia)). nia.
  - cbn. lia.
  - rewrite Z.sgn_pos, Z.abs_eq by lia. assert (0 < c) by nia. pose proof (rndu_le 0 z c j ltac:(lia) N ltac:(lia) J ltac:(rewrite Z.pow_0_r; lia)). lia.
Qed.
Lemma rnd_opp z : rnd (- z) = - rnd z.
Proof. unfold rnd. rewrite Z.sgn_opp, Z.abs_opp. lia. Qed.
Lemma repr_opp v : repr v -> repr (- v).
Proof. intros (c & j & -> & C & J). exists (- c), j. repeat split; lia. Qed.
Lemma rnd_ge z v : repr v -> v <= z -> v <= rnd z.
Proof. intros R L. pose proof (rnd_le (- z) (- v) (repr_opp v R) ltac:(lia)) as H. rewrite rnd_opp in H. lia. Qed.
Lemma rnd_repr v : repr v -> rnd v = v.
Proof. intros R. pose proof (rnd_le v v R ltac:(lia)). pose proof (rnd_ge v v R ltac:(lia)). lia. Qed.
Lemma rnd_near z : 2 ^ 53 * Z.abs (rnd z - z) <= Z.abs z.
Proof.
  unfold rnd. destruct (Z.lt_trichotomy z 0) as [N|[->|N]]; [|cbn; lia|].
  - pose proof (rndu_near0 (- z) ltac:(lia)). rewrite Z.sgn_neg, (Z.abs_neq z) by lia. lia.
  - pose proof (rndu_near0 z N). rewrite Z.sgn_pos, (Z.abs_eq z) by lia. lia.
Qed.
Lemma rndm_le z v : repr v -> z <= v * 2 ^ 1074 -> rndm z <= v.
Proof.
  intros (c & j & -> & C & J) L. pose proof (pow_pos j J) as P. pose proof (pow_pos 1074 ltac:(lia)) as P'. unfold rndm. destruct (Z.lt_trichotomy z 0) as [N|[->|N]].
  - rewrite Z.sgn_neg, Z.abs_neq by lia. destruct (Z_lt_le_dec c 0).
    + pose proof (rndu_ge 1074 (- z) (- c) j ltac:(lia) ltac:(lia) ltac:(lia) J ltac:(lia)). lia.
    + pose proof (rndu_nonneg 1074 (- z) ltac:(lia) ltac:(lia)). nia.
  - change (0 <= c * 2 ^ j). nia.
  - rewrite Z.sgn_pos, Z.abs_eq by lia. assert (0 < c) by nia. pose proof (rndu_le 1074 z c j ltac:(lia) N ltac:(lia) J ltac:(lia)). lia.
Qed.
Lemma rndm_opp z : rndm (- z) = - rndm z.
Proof. unfold rndm. rewrite Z.sgn_opp, Z.abs_opp. lia. Qed.
Lemma rndm_ge z v : repr v -> v * 2 ^ 1074 <= z -> v <= rndm z.
Proof. intros R L. pose proof (rndm_le (- z) (- v) (repr_opp v R) ltac:(lia)) as H. rewrite rndm_opp in H. lia. Qed.
(** ** Operations *)
Lemma holds_result (sx : bool) V r : 0 <= V -> holds sx V r -> result (if sx then - V else V) r.
Proof.
  intros P (A & B & C). split; [exact A|]. assert (0 < top) by reflexivity. split; [|split].
  - intros L. apply B. destruct sx; lia.
  - intros L. destruct sx; [lia|]. apply C. lia.
  - intros L. destruct sx; [|lia]. apply C. lia.
Qed.
Lemma normalize_spec m e s : -1074 <= e -> result (rnd (m * 2 ^ (e + 1074))) (binary_normalize 53 1024 m e s).
Proof.
  intros E. pose proof (pow_pos (e + 1074) ltac:(lia)) as P. unfold rnd. destruct m as [|p|p]; cbn [binary_normalize].
  - split; [reflexivity|]. cbn [Z.mul Z.sgn]. assert (0 < top) by reflexivity. split; [intros; split; reflexivity|]. split; intros; lia.
  - pose proof (holds_result false _ _ (rndu_nonneg 0 (Z.pos p * 2 ^ (e + 1074)) ltac:(lia) ltac:(lia)) (round_rndu false p e E)) as H. rewrite Z.sgn_pos, Z.abs_eq by lia. rewrite Z.mul_1_l. exact H.
  - pose proof (holds_result true _ _ (rndu_nonneg 0 (Z.pos p * 2 ^ (e + 1074)) ltac:(lia) ltac:(lia)) (round_rndu true p e E)) as H. rewrite Z.sgn_neg, Z.abs_neq by lia. replace (- (Z.neg p * 2 ^ (e + 1074))) with (Z.pos p * 2 ^ (e + 1074)) by lia. replace (-1 * rndu 0 (Z.pos p * 2 ^ (e + 1074))) with (- rndu 0 (Z.pos p * 2 ^ (e + 1074))) by lia. exact H.
Qed.
Lemma result_self x : is_double x -> result (rnd (val x)) x.
Proof.
  intros D. destruct (val_repr x D) as [R T]. rewrite rnd_repr by exact R. destruct D as [V F]. split; [exact V|]. split; [auto|]. split; intros; lia.
Qed.
Lemma align_val p e ez : -1074 <= ez -> ez <= e -> Zpos (fst (shl_align p e ez)) * 2 ^ (ez + 1074) = Zpos p * 2 ^ (e + 1074).
Proof.
  intros A B. unfold shl_align. destruct (ez - e) as [|d|d] eqn:D; [replace ez with e by lia; reflexivity|lia|]. cbn [fst]. rewrite shift_pos_correct, Z.pow_pos_fold. replace (e + 1074) with (Zpos d + (ez + 1074)) by lia. rewrite (Z.pow_add_r 2 (Zpos d) (ez + 1074)) by lia. ring.
Qed.
Lemma fadd_spec x y : is_double x -> is_double y -> result (rnd (val x + val y)) (fadd x y).
Proof.
  intros X Y. pose proof (result_self x X) as RX. pose proof (result_self y Y) as RY. destruct x as [sx|sx| |sx mx ex], y as [sy|sy| |sy my ey]; try (destruct X as [_ X]; discriminate); try (destruct Y as [_ Y]; discriminate).
  - cbn [fadd SFadd]. change (val (S754_zero sx) + val (S754_zero sy)) with 0. destruct (Bool.eqb sx sy); split; try reflexivity; (split; [intros; split; reflexivity|]; split; intros H; discriminate H || (vm_compute in H; congruence)).
  - cbn [fadd SFadd]. change (val (S754_zero sx)) with 0. rewrite Z.add_0_l. exact RY.
  - cbn [fadd SFadd]. change (val (S754_zero sy)) with 0. rewrite Z.add_0_r. exact RX.
  - destruct X as [X _], Y as [Y _]. apply valid_canonical in X, Y. destruct X as (_ & EX & _), Y as (_ & EY & _). unfold fadd. cbn [SFadd]. set (ez := Z.min ex ey).
    replace (val (S754_finite sx mx ex) + val (S754_finite sy my ey)) with ((cond_Zopp sx (Zpos (fst (shl_align mx ex ez))) + cond_Zopp sy (Zpos (fst (shl_align my ey ez)))) * 2 ^ (ez + 1074)); [apply normalize_spec; lia|].
    cbn [val]. rewrite Z.mul_add_distr_r. f_equal; [pose proof (align_val mx ex ez ltac:(lia) ltac:(lia)); destruct sx; cbn [cond_Zopp]; lia|pose proof (align_val my ey ez ltac:(lia) ltac:(lia)); destruct sy; cbn [cond_Zopp]; lia].
Qed.
Lemma fneg_val x : val (fneg x) = - val x.
Proof. destruct x as [s|s| |s m e]; try reflexivity. cbn [fneg SFopp val]. destruct s; cbn [negb]; lia. Qed.
Lemma fneg_double x : is_double x -> is_double (fneg x).
Proof. intros [V F]. destruct x; try discriminate; split; auto. Qed.
Lemma fsub_fadd x y : fsub x y = fadd x (fneg y).
Proof.
  destruct x as [sx|sx| |sx mx ex], y as [sy|sy| |sy my ey]; try reflexivity. unfold fsub, fadd, fneg. cbn [SFsub SFadd SFopp]. f_equal. destruct sy; cbn [cond_Zopp negb]; lia.
Qed.
Lemma fsub_spec x y : is_double x -> is_double y -> result (rnd (val x - val y)) (fsub x y).
Proof.
  intros X Y. rewrite fsub_fadd. pose proof (fadd_spec x (fneg y) X (fneg_double y Y)) as H. rewrite fneg_val in H. exact H.
Qed.
Lemma fmul_spec x y : is_double x -> is_double y -> result (rndm (val x * val y)) (fmul x y).
Proof.
  intros X Y. assert (T : 0 < top) by reflexivity.
  destruct x as [sx|sx| |sx mx ex], y as [sy|sy| |sy my ey]; try (destruct X as [_ X]; discriminate); try (destruct Y as [_ Y]; discriminate).
  1-3: cbn [fmul SFmul val]; rewrite ?Z.mul_0_l, ?Z.mul_0_r; split; [reflexivity|]; split; [intros; split; reflexivity|]; split; intros; change (rndm 0) with 0 in *; lia.
  destruct X as [X _], Y as [Y _]. apply valid_canonical in X, Y. destruct X as (CX & EX & _ & NX), Y as (CY & EY & _ & NY). unfold fmul. cbn [SFmul].
  pose proof (pow_pos (ex + 1074) ltac:(lia)) as PX. pose proof (pow_pos (ey + 1074) ltac:(lia)) as PY.
  assert (V : Z.abs (val (S754_finite sx mx ex) * val (S754_finite sy my ey)) = Zpos (mx * my) * 2 ^ (ex + ey + 1074 + 1074)).
  { cbn [val]. replace (ex + ey + 1074 + 1074) with ((ex + 1074) + (ey + 1074)) by lia. rewrite (Z.pow_add_r 2 (ex + 1074) (ey + 1074)) by lia. rewrite Pos2Z.inj_mul, !Z.abs_mul, (Z.abs_eq (2 ^ (ex + 1074))), (Z.abs_eq (2 ^ (ey + 1074))) by lia. replace (Z.abs (if sx then - Z.pos mx else Z.pos mx)) with (Zpos mx) by (destruct sx; lia). replace (Z.abs (if sy then - Z.pos my else Z.pos my)) with (Zpos my) by (destruct sy; lia). ring. }
  assert (L : ex + ey <= fexp 53 1024 (digits (Zpos (mx * my)) + (ex + ey))).
  { rewrite fexp_eq. rewrite Pos2Z.inj_mul. destruct (Z_lt_le_dec (-1074) ex) as [A|A].
    - specialize (NX A). assert (53 <= digits (Zpos mx * Zpos my)); [|lia]. assert (52 <= Z.log2 (Z.pos mx * Z.pos my)); [|unfold digits; lia]. apply Z.log2_le_pow2; [lia|]; rewrite <- (Z.mul_1_r (2 ^ 52)); apply Z.mul_le_mono_nonneg; lia.
    - destruct (Z_lt_le_dec (-1074) ey) as [B|B]; [|lia]. specialize (NY B). assert (53 <= digits (Zpos mx * Zpos my)); [|lia]. assert (52 <= Z.log2 (Z.pos mx * Z.pos my)); [|unfold digits; lia]. apply Z.log2_le_pow2; [lia|]; rewrite <- (Z.mul_1_l (2 ^ 52)); apply Z.mul_le_mono_nonneg; lia. }
  pose proof (aux_rndu (xorb sx sy) (mx * my) (ex + ey) 1074 ltac:(lia) ltac:(lia) L) as H. apply holds_result in H; [|apply rndu_nonneg; [lia|]; rewrite <- V; cbn [val]; destruct sx, sy; nia].
  unfold rndm. rewrite V. match goal with |- result ?a _ => match type of H with result ?b _ => replace a with b; [exact H|] end end.
  assert (S : Z.sgn (val (S754_finite sx mx ex) * val (S754_finite sy my ey)) = if xorb sx sy then -1 else 1) by (cbn [val]; destruct sx, sy; cbn [xorb]; (apply Z.sgn_pos; nia) || (apply Z.sgn_neg; nia)). rewrite S. destruct (xorb sx sy); lia.
Qed.
(** ** Comparisons *)
Lemma compare_val x y : is_double x -> is_double y -> SFcompare x y = Some (val x ?= val y).
Proof.
  intros X Y.
  assert (G : forall s p e t q f, valid (S754_finite s p e) -> valid (S754_finite t q f) -> e < f -> Zpos p * 2 ^ (e + 1074) < Zpos q * 2 ^ (f + 1074)).
  { intros s p e t q f A B L. apply valid_canonical in A, B. destruct A as (_ & A1 & A2 & _), B as (_ & B1 & _ & B2). specialize (B2 ltac:(lia)). assert (2 ^ (e + 1 + 1074) <= 2 ^ (f + 1074)) by (apply pow_le; lia). replace (e + 1 + 1074) with (Z.succ (e + 1074)) in H by lia. rewrite Z.pow_succ_r in H by lia. pose proof (pow_pos (e + 1074) ltac:(lia)). change (2 ^ 53) with (2 * 2 ^ 52) in A2. nia. }
  destruct x as [sx|sx| |sx mx ex], y as [sy|sy| |sy my ey]; try (destruct X as [_ X]; discriminate); try (destruct Y as [_ Y]; discriminate); cbn [SFcompare]; f_equal; symmetry.
  - destruct Y as [Y _]. apply valid_canonical in Y. pose proof (pow_pos (ey + 1074) ltac:(lia)). cbn [val]. destruct sy; [apply Z.compare_gt_iff|apply Z.compare_lt_iff]; nia.
  - destruct X as [X _]. apply valid_canonical in X. pose proof (pow_pos (ex + 1074) ltac:(lia)). cbn [val]. destruct sx; [apply Z.compare_lt_iff|apply Z.compare_gt_iff]; nia.
  - destruct X as [X _], Y as [Y _]. pose proof X as X'. pose proof Y as Y'. apply valid_canonical in X', Y'. pose proof (pow_pos (ex + 1074) ltac:(lia)). pose proof (pow_pos (ey + 1074) ltac:(lia)). cbn [val].
    assert (C : Pcompare mx my Eq = (Zpos mx ?= Zpos my)) by reflexivity. destruct sx, sy; [| apply Z.compare_lt_iff; nia | apply Z.compare_gt_iff; nia |].
    + destruct (Z.compare_spec ex ey) as [->|L|L]; [|apply Z.compare_gt_iff; specialize (G _ _ _ _ _ _ X Y L); lia|apply Z.compare_lt_iff; specialize (G _ _ _ _ _ _ Y X L); lia]. rewrite C. rewrite <- Z.compare_antisym. destruct (Z.compare_spec (Zpos my) (Zpos mx)) as [E|L|L]; [apply Z.compare_eq_iff; nia|apply Z.compare_lt_iff; nia|apply Z.compare_gt_iff; nia].
    + destruct (Z.compare_spec ex ey) as [->|L|L]; [|apply Z.compare_lt_iff; specialize (G _ _ _ _ _ _ X Y L); lia|apply Z.compare_gt_iff; specialize (G _ _ _ _ _ _ Y X L); lia]. rewrite C. destruct (Z.compare_spec (Zpos mx) (Zpos my)) as [E|L|L]; [apply Z.compare_eq_iff; nia|apply Z.compare_lt_iff; nia|apply Z.compare_gt_iff; nia].
Qed.
Lemma fle_val x y : is_double x -> is_double y -> fle x y = (val x <=? val y).
Proof. intros X Y. unfold fle, SFleb. rewrite compare_val by assumption. unfold Z.leb. destruct (val x ?= val y); reflexivity. Qed.
Lemma flt_val x y : is_double x -> is_double y -> flt x y = (val x <? val y).
Proof. intros X Y. unfold flt, SFltb. rewrite compare_val by assumption. unfold Z.ltb. destruct (val x ?= val y); reflexivity. Qed.
