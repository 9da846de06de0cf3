(** Doubles with both infinities: order, and operations that may overflow. *)
From Coq Require Import ZArith Lia Bool.
From Coq Require Import Floats.SpecFloat.
From Verif Require Import Base Binary64 Binary64_Round Binary64_Order.
Local Open Scope Z_scope.

(** A double that is not NaN, and its place in the order. *)
Definition number (x : double) : Prop := valid x /\ x <> S754_nan.
Definition place (x : double) : Z := match x with S754_infinity s => if s then - top else top | _ => val x end.

Lemma double_number x : is_double x -> number x /\ place x = val x /\ Z.abs (place x) < top.
Proof. intros D. pose proof (proj2 (val_repr x D)). destruct D as [V F]. destruct x; try discriminate; (split; [split; [exact V|discriminate]|split; [reflexivity|assumption]]). Qed.
Lemma number_cases x : number x -> is_double x \/ x = S754_infinity false \/ x = S754_infinity true.
Proof. intros [V N]. destruct x as [s|s| |s m e]; [left; split; [exact V|reflexivity]|destruct s; auto|congruence|left; split; [exact V|reflexivity]]. Qed.
Lemma place_range x : number x -> - top <= place x <= top.
Proof. intros N. pose proof top_pos. destruct (number_cases x N) as [D|[->| ->]]; [pose proof (proj2 (proj2 (double_number x D))); lia|cbn [place]; lia|cbn [place]; lia]. Qed.
Lemma fle_place x y : number x -> number y -> (fle x y = true <-> place x <= place y).
Proof.
  intros X Y. pose proof top_pos. destruct (number_cases x X) as [DX|[->| ->]], (number_cases y Y) as [DY|[->| ->]].
  - rewrite fle_val, Z.leb_le by assumption. destruct (double_number x DX) as (_ & -> & _), (double_number y DY) as (_ & -> & _). reflexivity.
  - pose proof (place_range x X). cbn [place]. split; [intros _; lia|]. intros _. destruct DX as [_ F]. destruct x; try discriminate; reflexivity.
  - pose proof (proj2 (proj2 (double_number x DX))). cbn [place]. split; [|lia]. destruct DX as [_ F]. destruct x; discriminate.
  - pose proof (proj2 (proj2 (double_number y DY))). cbn [place]. split; [|lia]. destruct DY as [_ F]. destruct y; discriminate.
  - split; [reflexivity|reflexivity].
  - cbn [place]. split; [discriminate|lia].
  - pose proof (place_range y Y). cbn [place]. split; [intros _; lia|]. intros _. destruct DY as [_ F]. destruct y; try discriminate; reflexivity.
  - cbn [place]. split; [lia|reflexivity].
  - cbn [place]. split; [lia|reflexivity].
Qed.
Lemma flt_fle x y : number x -> number y -> flt x y = negb (fle y x).
Proof.
  intros X Y. destruct (number_cases x X) as [DX|[->| ->]], (number_cases y Y) as [DY|[->| ->]]; try reflexivity.
  - rewrite flt_val, fle_val by assumption. destruct (Z.ltb_spec (val x) (val y)), (Z.leb_spec (val y) (val x)); try reflexivity; lia.
  - destruct DX as [_ F]. destruct x; try discriminate; reflexivity.
  - destruct DX as [_ F]. destruct x; try discriminate; reflexivity.
  - destruct DY as [_ F]. destruct y; try discriminate; reflexivity.
  - destruct DY as [_ F]. destruct y; try discriminate; reflexivity.
Qed.
Lemma flt_place x y : number x -> number y -> (flt x y = true <-> place x < place y).
Proof. intros X Y. rewrite flt_fle by assumption. rewrite negb_true_iff. pose proof (fle_place y x Y X) as H. destruct (fle y x); [split; [discriminate|]; pose proof (proj1 H eq_refl); lia|]. split; [|reflexivity]. intros _. destruct (Z_lt_le_dec (place x) (place y)) as [L|L]; [exact L|apply H in L; discriminate]. Qed.
(** The place of a rounded result. *)
Definition cap (v : Z) : Z := Z.max (- top) (Z.min v top).
Lemma result_place v r : result v r -> number r /\ place r = cap v.
Proof.
  intros R. pose proof top_pos. pose proof R as (V & _). destruct (result_cases v r R) as [(D & E & L)|[(-> & L)|(-> & L)]].
  - destruct (double_number r D) as (N & -> & _). split; [exact N|]. unfold cap. lia.
  - split; [split; [exact V|discriminate]|]. unfold cap. cbn [place]. lia.
  - split; [split; [exact V|discriminate]|]. unfold cap. cbn [place]. lia.
Qed.
(** Sums of numbers that are not negative. *)
Lemma fadd_up x y : number x -> number y -> 0 <= place x -> 0 <= place y ->
  number (fadd x y) /\ place x <= place (fadd x y) /\ place y <= place (fadd x y).
Proof.
  intros X Y PX PY. pose proof top_pos as T. destruct (number_cases x X) as [DX|[->| ->]]; [|..|cbn [place] in PX; lia].
  - destruct (number_cases y Y) as [DY|[->| ->]]; [|..|cbn [place] in PY; lia].
    + destruct (double_number x DX) as (_ & EX & LX), (double_number y DY) as (_ & EY & LY). rewrite EX, EY in *. destruct (result_place _ _ (fadd_spec x y DX DY)) as [N ->]. split; [exact N|].
      assert (val x <= rnd (val x + val y)) by (apply rnd_ge; [apply val_repr, DX|lia]). assert (val y <= rnd (val x + val y)) by (apply rnd_ge; [apply val_repr, DY|lia]). unfold cap. lia.
    + pose proof (place_range x X). assert (E : fadd x (S754_infinity false) = S754_infinity false) by (destruct DX as [_ F]; destruct x; try discriminate; reflexivity). rewrite E. split; [exact Y|]. cbn [place]. lia.
  - assert (E : fadd (S754_infinity false) y = S754_infinity false). { destruct (number_cases y Y) as [DY|[->| ->]]; [destruct DY as [_ F]; destruct y; try discriminate; reflexivity|reflexivity|cbn [place] in PY; lia]. } rewrite E. pose proof (place_range y Y). split; [exact X|]. cbn [place]. lia.
Qed.
(** Rounding of products is monotone. *)
Lemma rndm_mono a b : 0 <= a -> a <= b -> rndm a <= rndm b.
Proof.
  intros A L. unfold rndm. destruct (Z.eq_dec a 0) as [->|NA]; [cbn [Z.sgn]; destruct (Z.eq_dec b 0) as [->|NB]; [lia|]; rewrite Z.sgn_pos by lia; pose proof (rndu_nonneg 1074 (Z.abs b) ltac:(lia) ltac:(lia)); lia|].
  rewrite !Z.sgn_pos, !Z.abs_eq, !Z.mul_1_l by lia. unfold rndu.
  pose proof (digits_ge1 a ltac:(lia)) as G1. pose proof (digits_bounds a ltac:(lia)) as DA. pose proof (digits_bounds b ltac:(lia)) as DB. assert (DD : digits a <= digits b) by (unfold digits; pose proof (Z.log2_le_mono a b L); lia).
  assert (SA : shift 1074 a = Z.max (digits a - 53) 1074) by reflexivity. assert (SB : shift 1074 b = Z.max (digits b - 53) 1074) by reflexivity. destruct (Z.eq_dec (shift 1074 a) (shift 1074 b)) as [E|E].
  - rewrite E. apply Z.mul_le_mono_nonneg_r; [apply Z.lt_le_incl, pow_pos; lia|]. apply rne_mono; lia.
  - set (n := shift 1074 a) in *. set (m := shift 1074 b) in *. clearbody n m.
    assert (X : rne a n <= 2 ^ 53) by (apply rne_le; [lia|]; rewrite <- Z.pow_add_r by lia; assert (2 ^ digits a <= 2 ^ (53 + n)) by (apply pow_le; lia); lia).
    assert (Y : 2 ^ 52 <= rne b m) by (apply rne_ge; [lia|]; rewrite <- Z.pow_add_r by lia; replace (52 + m) with (digits b - 1) by lia; lia).
    assert (W : 2 * 2 ^ (n - 1074) <= 2 ^ (m - 1074)) by (rewrite <- Z.pow_succ_r by lia; apply pow_le; lia). pose proof (pow_pos (n - 1074) ltac:(lia)) as PP. set (u := 2 ^ (n - 1074)) in *. set (w := 2 ^ (m - 1074)) in *. clearbody u w. change (2 ^ 53) with (2 ^ 52 * 2) in X. nia.
Qed.
Lemma rnd_pos z : 0 < rnd z <-> 0 < z.
Proof.
  split; intros H.
  - destruct (Z_lt_le_dec 0 z) as [L|L]; [exact L|]. pose proof (rnd_le z 0 ltac:(exists 0, 0; repeat split; lia) L). lia.
  - pose proof (rnd_ge z 1 ltac:(exists 1, 0; repeat split; lia) ltac:(lia)). lia.
Qed.
Lemma rnd_abs z : Z.abs (rnd z) = rnd (Z.abs z).
Proof.
  destruct (Z_lt_le_dec z 0) as [L|L].
  - rewrite (Z.abs_neq z), rnd_opp by lia. pose proof (rnd_le z 0 ltac:(exists 0, 0; repeat split; lia) ltac:(lia)). lia.
  - rewrite (Z.abs_eq z) by lia. pose proof (rnd_ge z 0 ltac:(exists 0, 0; repeat split; lia) ltac:(lia)). lia.
Qed.
(** The square of a rounded difference: (a - b) * (a - b). *)
Definition fsq (a b : double) : double := fmul (fsub a b) (fsub a b).
Lemma fsq_place a b : is_double a -> is_double b -> number (fsq a b) /\
  place (fsq a b) = (if Z.abs (rnd (val a - val b)) <? top then cap (rndm (rnd (val a - val b) * rnd (val a - val b))) else top) /\ 0 <= place (fsq a b).
Proof.
  intros A B. pose proof top_pos as T. unfold fsq. destruct (result_cases _ _ (fsub_spec a b A B)) as [(D & E & L)|[(E & L)|(E & L)]].
  - destruct (result_place _ _ (fmul_spec _ _ D D)) as [N P]. rewrite E in P. split; [exact N|]. rewrite (proj2 (Z.ltb_lt _ _) L). split; [exact P|]. rewrite P. set (w := rnd (val a - val b)) in *. pose proof (rndm_mono 0 (w * w) ltac:(lia) ltac:(nia)) as M. change (rndm 0) with 0 in M. unfold cap. lia.
  - rewrite E. rewrite (proj2 (Z.ltb_ge _ _)) by lia. split; [split; [reflexivity|discriminate]|]. split; [reflexivity|]. change (0 <= top). lia.
  - rewrite E. rewrite (proj2 (Z.ltb_ge _ _)) by lia. split; [split; [reflexivity|discriminate]|]. split; [reflexivity|]. change (0 <= top). lia.
Qed.
Lemma fsq_mono a b c d : is_double a -> is_double b -> is_double c -> is_double d -> Z.abs (val a - val b) <= Z.abs (val c - val d) -> place (fsq a b) <= place (fsq c d).
Proof.
  intros A B C D L. destruct (fsq_place a b A B) as (N1 & P1 & _), (fsq_place c d C D) as (N2 & P2 & _). pose proof (place_range _ N1). pose proof top_pos.
  pose proof (rnd_mono _ _ L) as M. rewrite <- !rnd_abs in M. set (x := rnd (val a - val b)) in *. set (y := rnd (val c - val d)) in *. clearbody x y.
  rewrite P2. destruct (Z.ltb_spec (Z.abs y) top); [|lia]. rewrite P1. destruct (Z.ltb_spec (Z.abs x) top); [|lia]. pose proof (rndm_mono (x * x) (y * y) ltac:(nia) ltac:(nia)). unfold cap. lia.
Qed.
