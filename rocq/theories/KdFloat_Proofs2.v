(** Proofs for C104: how far rounded squared distances are from exact ones. *)
From Coq Require Import List ZArith Lia.
From Coq Require Import Floats.SpecFloat.
From Verif Require Import Base Binary64 Binary64_Round Binary64_Order Binary64_Ext KdFloat_Model KdFloat_Spec KdFloat_Proofs.
Import ListNotations.
Local Open Scope Z_scope.

Lemma rndm_near z : 0 <= z -> 2 ^ 53 * Z.abs (rndm z * 2 ^ 1074 - z) <= z + 2 ^ 1126.
Proof.
  intros G. destruct (Z.eq_dec z 0) as [->|N]; [reflexivity || (vm_compute; discriminate)|]. unfold rndm. rewrite Z.sgn_pos, (Z.abs_eq z), Z.mul_1_l by lia.
  pose proof (rndu_near 1074 z ltac:(lia) ltac:(lia)) as H. pose proof (digits_bounds z ltac:(lia)) as D. set (e := Z.abs (rndu 1074 z * 2 ^ 1074 - z)) in *. clearbody e.
  assert (S : shift 1074 z = Z.max (digits z - 53) 1074) by reflexivity. destruct (Z.max_spec (digits z - 53) 1074) as [[L E]|[L E]]; rewrite E in S; rewrite S in H.
  - change (2 ^ 1126) with (2 ^ 52 * 2 ^ 1074). set (w := 2 ^ 1074) in *. clearbody w. change (2 ^ 53) with (2 * 2 ^ 52). lia.
  - assert (X : 2 ^ 52 * 2 ^ (digits z - 53) = 2 ^ (digits z - 1)) by (rewrite <- Z.pow_add_r by lia; f_equal; lia). set (w := 2 ^ (digits z - 53)) in *. clearbody w. assert (0 <= 2 ^ 1126) by (apply Z.pow_nonneg; lia). set (v := 2 ^ 1126) in *. clearbody v. change (2 ^ 53) with (2 * 2 ^ 52). lia.
Qed.

Lemma square_bounds B w d : 0 < B -> B * Z.abs (w - d) <= Z.abs d -> B ^ 2 * w ^ 2 <= (B + 1) ^ 2 * d ^ 2 /\ (B - 1) ^ 2 * d ^ 2 <= B ^ 2 * w ^ 2.
Proof.
  intros P H. assert (A : B * Z.abs w <= (B + 1) * Z.abs d) by nia. assert (C : (B - 1) * Z.abs d <= B * Z.abs w) by nia.
  rewrite <- (Z.abs_square w) || idtac.
  replace (w ^ 2) with (Z.abs w * Z.abs w) by (rewrite <- Z.abs_mul, Z.abs_eq by nia; ring). replace (d ^ 2) with (Z.abs d * Z.abs d) by (rewrite <- Z.abs_mul, Z.abs_eq by nia; ring).
  set (x := Z.abs w) in *. set (y := Z.abs d) in *. assert (0 <= x) by (unfold x; lia). assert (0 <= y) by (unfold y; lia). clearbody x y.
  replace (B ^ 2 * (x * x)) with ((B * x) * (B * x)) by ring. replace ((B + 1) ^ 2 * (y * y)) with (((B + 1) * y) * ((B + 1) * y)) by ring. replace ((B - 1) ^ 2 * (y * y)) with (((B - 1) * y) * ((B - 1) * y)) by ring.
  split; apply Z.mul_le_mono_nonneg; nia.
Qed.
Definition unit_half : Z := 2 ^ 1073.
Lemma term_bounds B d : B = 2 ^ 53 -> let t := rndm (rnd d * rnd d) * 2 ^ 1074 in
  B ^ 3 * t <= (B + 1) ^ 3 * d ^ 2 + B ^ 3 * unit_half /\ (B - 1) ^ 3 * d ^ 2 - B ^ 3 * unit_half <= B ^ 3 * t.
Proof.
  intros EB. assert (PB : 1 < B) by (subst B; reflexivity). cbv zeta. pose proof (rnd_near d) as N. rewrite <- EB in N. set (w := rnd d) in *. clearbody w.
  destruct (square_bounds B w d ltac:(lia) N) as [U L]. pose proof (rndm_near (w * w) ltac:(nia)) as M. change (2 ^ 1126) with (2 ^ 53 * 2 ^ 1073) in M. fold unit_half in M. rewrite <- EB in M.
  set (t := rndm (w * w) * 2 ^ 1074) in *. clearbody t. set (u := unit_half) in *. clearbody u. replace (w ^ 2) with (w * w) in * by ring. set (ww := w * w) in *. clearbody ww.
  assert (B * t <= (B + 1) * ww + B * u) by lia. assert ((B - 1) * ww - B * u <= B * t) by lia.
  split.
  - replace (B ^ 3 * t) with (B ^ 2 * (B * t)) by ring. apply Z.le_trans with (B ^ 2 * ((B + 1) * ww + B * u)); [apply Z.mul_le_mono_nonneg_l; [nia|assumption]|].
    replace (B ^ 2 * ((B + 1) * ww + B * u)) with ((B + 1) * (B ^ 2 * ww) + B ^ 3 * u) by ring. replace ((B + 1) ^ 3 * d ^ 2) with ((B + 1) * ((B + 1) ^ 2 * d ^ 2)) by ring. apply Z.add_le_mono_r, Z.mul_le_mono_nonneg_l; [lia|exact U].
  - replace (B ^ 3 * t) with (B ^ 2 * (B * t)) by ring. apply Z.le_trans with (B ^ 2 * ((B - 1) * ww - B * u)); [|apply Z.mul_le_mono_nonneg_l; [nia|assumption]].
    replace (B ^ 2 * ((B - 1) * ww - B * u)) with ((B - 1) * (B ^ 2 * ww) - B ^ 3 * u) by ring. replace ((B - 1) ^ 3 * d ^ 2) with ((B - 1) * ((B - 1) ^ 2 * d ^ 2)) by ring. apply Z.sub_le_mono_r, Z.mul_le_mono_nonneg_l; [lia|exact L].
Qed.

Section T.
Variable P : Type.
Variable coord : P -> nat -> double.
Notation ex := (exact_sq P coord).
Notation rs := (rounded_sq P coord).
Notation finp := (finite_point P coord).

Lemma exact_nonneg n a b : 0 <= ex n a b.
Proof. induction n as [|n IH]; cbn [exact_sq]; [lia|]. pose proof (Z.pow_nonneg). nia. Qed.
Lemma cap_le v : 0 <= v -> cap v <= v /\ 0 <= cap v.
Proof. pose proof top_pos. unfold cap. lia. Qed.

(** Sums and squares with bounds, overflow included. *)
Lemma fsq_up B a b : B = 2 ^ 53 -> is_double a -> is_double b -> place (fsq a b) < top ->
  B ^ 3 * (place (fsq a b) * 2 ^ 1074) <= (B + 1) ^ 3 * (val a - val b) ^ 2 + B ^ 3 * unit_half /\
  (B - 1) ^ 3 * (val a - val b) ^ 2 - B ^ 3 * unit_half <= B ^ 3 * (place (fsq a b) * 2 ^ 1074).
Proof.
  intros EB A D L. destruct (fsq_place a b A D) as (_ & E & G). destruct (Z.ltb_spec (Z.abs (rnd (val a - val b))) top); [|lia].
  assert (C : place (fsq a b) = rndm (rnd (val a - val b) * rnd (val a - val b))) by (unfold cap in E; pose proof top_pos; lia).
  rewrite C. apply term_bounds, EB.
Qed.
Lemma fadd_bounds B x y : B = 2 ^ 53 -> number x -> number y -> 0 <= place x -> 0 <= place y -> place (fadd x y) < top ->
  B * place (fadd x y) <= (B + 1) * (place x + place y) /\ (B - 1) * (place x + place y) <= B * place (fadd x y).
Proof.
  intros EB X Y GX GY L. destruct (fadd_up x y X Y GX GY) as (_ & LX & LY). pose proof top_pos.
  destruct (number_cases x X) as [DX|[->| ->]]; [|cbn [place] in LX; lia|cbn [place] in GX; lia]. destruct (number_cases y Y) as [DY|[->| ->]]; [|cbn [place] in LY; lia|cbn [place] in GY; lia].
  destruct (result_place _ _ (fadd_spec x y DX DY)) as [_ E]. destruct (double_number x DX) as (_ & EX & _), (double_number y DY) as (_ & EY & _). rewrite EX, EY in *.
  assert (C : place (fadd x y) = rnd (val x + val y)) by (unfold cap in E; lia). rewrite C in *. pose proof (rnd_near (val x + val y)) as N. rewrite <- EB in N. set (s := val x + val y) in *. assert (0 <= s) by (unfold s; lia). clearbody s. nia.
Qed.

Lemma rounded_bounds B n a b : B = 2 ^ 53 -> finp n a -> finp n b -> place (rs n a b) < top ->
  B ^ (Z.of_nat n + 3) * (place (rs n a b) * 2 ^ 1074) <= (B + 1) ^ (Z.of_nat n + 3) * (ex n a b + Z.of_nat n * unit_half) /\
  (B - 1) ^ (Z.of_nat n + 3) * ex n a b - B ^ (Z.of_nat n + 3) * (Z.of_nat n * unit_half) <= B ^ (Z.of_nat n + 3) * (place (rs n a b) * 2 ^ 1074).
Proof.
  intros EB. assert (PB : 1 < B) by (subst B; reflexivity). induction n as [|n IH]; intros A D L.
  { cbn [rounded_sq exact_sq Z.of_nat]. change (place fzero) with 0. lia. }
  assert (A' : finp n a) by (intros i I; apply A; lia). assert (D' : finp n b) by (intros i I; apply D; lia).
  pose proof (A n ltac:(lia)) as An. pose proof (D n ltac:(lia)) as Dn. destruct (rounded_ok P coord n a b A' D') as (N & G & _).
  destruct (fsq_place _ _ An Dn) as (N2 & _ & G2). cbn [rounded_sq] in *. fold (fsq (coord a n) (coord b n)) in *.
  destruct (fadd_up _ _ N N2 G G2) as (_ & L1 & L2). destruct (IH A' D' ltac:(lia)) as [U1 W1]. destruct (fsq_up B _ _ EB An Dn ltac:(lia)) as [U2 W2].
  destruct (fadd_bounds B _ _ EB N N2 G G2 L) as [U3 W3]. cbn [exact_sq]. clear IH L1 L2 L.
  set (x := place (rs n a b)) in *. set (y := place (fsq (coord a n) (coord b n))) in *. set (z := place (fadd _ _)) in *. clearbody x y z.
  pose proof (exact_nonneg n a b) as GE. set (e := ex n a b) in *. clearbody e. assert (GD : 0 <= (val (coord a n) - val (coord b n)) ^ 2) by nia. set (d2 := (val (coord a n) - val (coord b n)) ^ 2) in *. clearbody d2.
  assert (GU : 0 <= unit_half) by (apply Z.pow_nonneg; lia). set (u := unit_half) in *. clearbody u. assert (GK : 0 < 2 ^ 1074) by (apply Z.pow_pos_nonneg; lia). set (k := 2 ^ 1074) in *. clearbody k.
  rewrite Nat2Z.inj_succ. set (m := Z.of_nat n) in *. assert (GM : 0 <= m) by (unfold m; lia). clearbody m. replace (Z.succ m + 3) with (Z.succ (m + 3)) by lia. rewrite !Z.pow_succ_r by lia.
  assert (PP : forall b, 0 <= b -> b ^ (m + 3) = b ^ m * b ^ 3) by (intros; apply Z.pow_add_r; lia).
  assert (Q1 : B ^ m <= (B + 1) ^ m) by (apply Z.pow_le_mono_l; lia). assert (Q2 : (B - 1) ^ m <= B ^ m) by (apply Z.pow_le_mono_l; lia). assert (Q0 : 0 <= (B - 1) ^ m) by (apply Z.pow_nonneg; lia).
  assert (R1 : B ^ (m + 3) <= (B + 1) ^ (m + 3)) by (apply Z.pow_le_mono_l; lia). assert (R2 : (B - 1) ^ (m + 3) <= B ^ (m + 3)) by (apply Z.pow_le_mono_l; lia). assert (R0 : 0 <= (B - 1) ^ (m + 3)) by (apply Z.pow_nonneg; lia).
  assert (T0 : 0 <= B ^ 3) by nia.
  (* the term, scaled *)
  assert (V2 : B ^ (m + 3) * (y * k) <= (B + 1) ^ (m + 3) * (d2 + u)).
  { rewrite (PP B) by lia. rewrite <- Z.mul_assoc. apply Z.le_trans with (B ^ m * ((B + 1) ^ 3 * d2 + B ^ 3 * u)); [apply Z.mul_le_mono_nonneg_l; [lia|exact U2]|].
    rewrite Z.mul_add_distr_l, Z.mul_add_distr_l. apply Z.add_le_mono.
    - rewrite (PP (B + 1)) by lia. rewrite Z.mul_assoc. apply Z.mul_le_mono_nonneg_r; [exact GD|]. apply Z.mul_le_mono_nonneg_r; [apply Z.pow_nonneg; lia|exact Q1].
    - rewrite Z.mul_assoc, <- PP by lia. apply Z.mul_le_mono_nonneg_r; assumption. }
  assert (X2 : (B - 1) ^ (m + 3) * d2 - B ^ (m + 3) * u <= B ^ (m + 3) * (y * k)).
  { rewrite (PP B) by lia. rewrite <- (Z.mul_assoc _ _ (y * k)). apply Z.le_trans with (B ^ m * ((B - 1) ^ 3 * d2 - B ^ 3 * u)); [|apply Z.mul_le_mono_nonneg_l; [lia|exact W2]].
    rewrite Z.mul_sub_distr_l, !Z.mul_assoc. apply Z.sub_le_mono_r. apply Z.mul_le_mono_nonneg_r; [exact GD|]. rewrite PP by lia. apply Z.mul_le_mono_nonneg_r; [apply Z.pow_nonneg; lia|exact Q2]. }
  set (H := B ^ (m + 3)) in *. set (J := (B + 1) ^ (m + 3)) in *. set (K := (B - 1) ^ (m + 3)) in *. clearbody H J K. clear U2 W2 PP Q1 Q2 Q0 T0.
  split.
  - replace (B * H * (z * k)) with (H * k * (B * z)) by ring. apply Z.le_trans with (H * k * ((B + 1) * (x + y))); [apply Z.mul_le_mono_nonneg_l; [nia|exact U3]|].
    replace (H * k * ((B + 1) * (x + y))) with ((B + 1) * (H * (x * k) + H * (y * k))) by ring. replace ((B + 1) * J * (e + d2 + Z.succ m * u)) with ((B + 1) * (J * (e + m * u) + J * (d2 + u))) by (unfold Z.succ; ring). apply Z.mul_le_mono_nonneg_l; lia.
  - replace (B * H * (z * k)) with (H * k * (B * z)) by ring. apply Z.le_trans with (H * k * ((B - 1) * (x + y))); [|apply Z.mul_le_mono_nonneg_l; [nia|exact W3]].
    replace (H * k * ((B - 1) * (x + y))) with ((B - 1) * (H * (x * k) + H * (y * k))) by ring.
    apply Z.le_trans with ((B - 1) * ((K * e - H * (m * u)) + (K * d2 - H * u))); [|apply Z.mul_le_mono_nonneg_l; lia].
    replace ((B - 1) * ((K * e - H * (m * u)) + (K * d2 - H * u))) with ((B - 1) * K * (e + d2) - (B - 1) * H * (Z.succ m * u)) by (unfold Z.succ; ring). apply Z.sub_le_mono_l. apply Z.mul_le_mono_nonneg_r; [unfold Z.succ; nia|nia].
Qed.
End T.
