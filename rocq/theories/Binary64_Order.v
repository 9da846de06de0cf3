(** Order facts about rounded sums, differences and products of doubles. *)
From Coq Require Import ZArith Lia Bool.
From Coq Require Import Floats.SpecFloat.
From Verif Require Import Binary64 Binary64_Round.
Local Open Scope Z_scope.

(** ** Rounding keeps the order *)
Lemma rne_mono a b n : 0 <= n -> a <= b -> rne a n <= rne b n.
Proof.
  intros N L. pose proof (pow_pos n N) as P. pose proof (Z.div_le_mono a b (2 ^ n) P L) as D. destruct (Z.eq_dec (a / 2 ^ n) (b / 2 ^ n)) as [E|E].
  - pose proof (Z.div_mod a (2 ^ n) ltac:(lia)) as A. pose proof (Z.div_mod b (2 ^ n) ltac:(lia)) as B. rewrite E in A. assert (M : a mod 2 ^ n <= b mod 2 ^ n) by lia. unfold rne. rewrite E.
    destruct (Z.ltb_spec (2 * (a mod 2 ^ n)) (2 ^ n)); destruct (Z.ltb_spec (2 * (b mod 2 ^ n)) (2 ^ n)); try lia; destruct (Z.eqb_spec (2 * (a mod 2 ^ n)) (2 ^ n)); destruct (Z.eqb_spec (2 * (b mod 2 ^ n)) (2 ^ n)); destruct (Z.even (b / 2 ^ n)); lia.
  - destruct (rne_floor a n), (rne_floor b n); lia.
Qed.
Lemma rndu_mono a b : 0 < a -> a <= b -> rndu 0 a <= rndu 0 b.
Proof.
  intros A L. unfold rndu. pose proof (digits_ge1 a A) as G1. pose proof (digits_bounds a A) as DA. pose proof (digits_bounds b ltac:(lia)) as DB. assert (DD : digits a <= digits b) by (unfold digits; pose proof (Z.log2_le_mono a b L); lia). assert (SA : shift 0 a = Z.max (digits a - 53) 0) by reflexivity. assert (SB : shift 0 b = Z.max (digits b - 53) 0) by reflexivity. rewrite !Z.sub_0_r. destruct (Z.eq_dec (shift 0 a) (shift 0 b)) as [E|E].
  - rewrite E. apply Z.mul_le_mono_nonneg_r; [apply Z.lt_le_incl, pow_pos; lia|]. apply rne_mono; lia.
  - assert (X : rne a (shift 0 a) <= 2 ^ 53) by (apply rne_le; [lia|]; rewrite <- Z.pow_add_r by lia; assert (2 ^ digits a <= 2 ^ (53 + shift 0 a)) by (apply pow_le; lia); lia).
    assert (Y : 2 ^ 52 <= rne b (shift 0 b)) by (apply rne_ge; [lia|]; rewrite <- Z.pow_add_r by lia; replace (52 + shift 0 b) with (digits b - 1) by lia; lia).
    assert (W : 2 * 2 ^ shift 0 a <= 2 ^ shift 0 b) by (rewrite <- Z.pow_succ_r by lia; apply pow_le; lia). pose proof (pow_pos (shift 0 a) ltac:(lia)). change (2 ^ 53) with (2 ^ 52 * 2) in X. nia.
Qed.
Lemma rnd_mono a b : a <= b -> rnd a <= rnd b.
Proof.
  intros L. unfold rnd. destruct (Z.lt_trichotomy a 0) as [A|[->|A]], (Z.lt_trichotomy b 0) as [B|[->|B]]; try lia.
  - rewrite !Z.sgn_neg, !Z.abs_neq by lia. pose proof (rndu_mono (- b) (- a) ltac:(lia) ltac:(lia)). lia.
  - rewrite Z.sgn_neg, Z.abs_neq by lia. pose proof (rndu_nonneg 0 (- a) ltac:(lia) ltac:(lia)). cbn [Z.sgn]. lia.
  - rewrite (Z.sgn_neg a), (Z.abs_neq a), (Z.sgn_pos b), (Z.abs_eq b) by lia. pose proof (rndu_nonneg 0 (- a) ltac:(lia) ltac:(lia)). pose proof (rndu_nonneg 0 b ltac:(lia) ltac:(lia)). lia.
  - rewrite (Z.sgn_pos b), (Z.abs_eq b) by lia. pose proof (rndu_nonneg 0 b ltac:(lia) ltac:(lia)). cbn [Z.sgn]. lia.
  - rewrite !Z.sgn_pos, !Z.abs_eq by lia. pose proof (rndu_mono a b ltac:(lia) ltac:(lia)). lia.
Qed.

(** ** Comparing a result *)
Lemma top_pos : 0 < top. Proof. reflexivity. Qed.
Lemma result_cases v r : result v r -> (is_double r /\ val r = v /\ Z.abs v < top) \/ (r = S754_infinity false /\ top <= v) \/ (r = S754_infinity true /\ v <= - top).
Proof.
  intros (V & A & B & C). destruct (Z_lt_le_dec (Z.abs v) top) as [L|L]; [left; destruct (A L); repeat split; auto|]. destruct (Z_lt_le_dec v 0); [right; right; split; [apply C|]; lia|right; left; split; [apply B|]; lia].
Qed.
Lemma fle_result_l v r w : result v r -> is_double w -> (fle r w = true <-> v <= val w).
Proof.
  intros R W. pose proof (proj2 (val_repr w W)) as T. destruct (result_cases v r R) as [(D & E & _)|[(E & L)|(E & L)]].
  - rewrite fle_val by assumption. rewrite E. apply Z.leb_le.
  - subst r. split; [|lia]. destruct W as [_ W]. destruct w; cbn; discriminate.
  - subst r. split; [lia|]. destruct W as [_ W]. destruct w; try discriminate; reflexivity.
Qed.
Lemma fle_result_r v r w : result v r -> is_double w -> (fle w r = true <-> val w <= v).
Proof.
  intros R W. pose proof (proj2 (val_repr w W)) as T. destruct (result_cases v r R) as [(D & E & _)|[(E & L)|(E & L)]].
  - rewrite fle_val by assumption. rewrite E. apply Z.leb_le.
  - subst r. split; [lia|]. destruct W as [_ W]. destruct w; try discriminate; reflexivity.
  - subst r. split; [|lia]. destruct W as [_ W]. destruct w; cbn; discriminate.
Qed.
Lemma flt_result_l v r w : result v r -> is_double w -> (flt r w = true <-> v < val w).
Proof.
  intros R W. pose proof (proj2 (val_repr w W)) as T. destruct (result_cases v r R) as [(D & E & _)|[(E & L)|(E & L)]].
  - rewrite flt_val by assumption. rewrite E. apply Z.ltb_lt.
  - subst r. split; [|lia]. destruct W as [_ W]. destruct w; cbn; discriminate.
  - subst r. split; [lia|]. destruct W as [_ W]. destruct w; try discriminate; reflexivity.
Qed.
Lemma flt_result_r v r w : result v r -> is_double w -> (flt w r = true <-> val w < v).
Proof.
  intros R W. pose proof (proj2 (val_repr w W)) as T. destruct (result_cases v r R) as [(D & E & _)|[(E & L)|(E & L)]].
  - rewrite flt_val by assumption. rewrite E. apply Z.ltb_lt.
  - subst r. split; [lia|]. destruct W as [_ W]. destruct w; try discriminate; reflexivity.
  - subst r. split; [|lia]. destruct W as [_ W]. destruct w; cbn; discriminate.
Qed.
(** A sum of doubles is a double unless it is too large. *)
Lemma fadd_small x y : is_double x -> is_double y -> Z.abs (rnd (val x + val y)) < top -> is_double (fadd x y) /\ val (fadd x y) = rnd (val x + val y).
Proof. intros X Y L. destruct (fadd_spec x y X Y) as (V & A & _). destruct (A L). repeat split; auto. Qed.
Lemma fsub_small x y : is_double x -> is_double y -> Z.abs (rnd (val x - val y)) < top -> is_double (fsub x y) /\ val (fsub x y) = rnd (val x - val y).
Proof. intros X Y L. destruct (fsub_spec x y X Y) as (V & A & _). destruct (A L). repeat split; auto. Qed.
