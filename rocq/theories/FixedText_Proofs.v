From Coq Require Import List Bool ZArith Ascii Lia.
From Coq Require Import Floats.SpecFloat.
From Verif Require Import Base Binary64 Binary64_Round FixedText_Model FixedText_Spec.
Import ListNotations.
Local Open Scope Z_scope.

(** ** Rounding *)
Lemma half_even_near num den : 0 < den -> 2 * Z.abs (num - half_even num den * den) <= den.
Proof.
  intros D. unfold half_even. pose proof (Z.div_mod num den ltac:(lia)) as E. pose proof (Z.mod_pos_bound num den D) as B.
  set (f := num / den) in *. set (r := num mod den) in *.
  destruct (Z.ltb_spec (2 * r) den); [nia|]. destruct (Z.ltb_spec den (2 * r)); [nia|].
  destruct (Z.even f); nia.
Qed.
Lemma half_even_tie num den : 0 < den -> 2 * Z.abs (num - half_even num den * den) = den -> Z.even (half_even num den) = true.
Proof.
  intros D. unfold half_even. pose proof (Z.div_mod num den ltac:(lia)) as E. pose proof (Z.mod_pos_bound num den D) as B.
  set (f := num / den) in *. set (r := num mod den) in *.
  destruct (Z.ltb_spec (2 * r) den); [nia|]. destruct (Z.ltb_spec den (2 * r)); [nia|].
  destruct (Z.even f) eqn:F; intros _; [exact F|]. rewrite Z.even_add, F. reflexivity.
Qed.
Lemma half_even_scale num den k : 0 < den -> 0 < k -> half_even (num * k) (den * k) = half_even num den.
Proof.
  intros D K. unfold half_even. rewrite Z.div_mul_cancel_r by lia. rewrite Z.mul_mod_distr_r by lia.
  set (f := num / den). set (r := num mod den).
  destruct (Z.ltb_spec (2 * r) den), (Z.ltb_spec (2 * (r * k)) (den * k)); try nia; try reflexivity.
  destruct (Z.ltb_spec den (2 * r)), (Z.ltb_spec (den * k) (2 * (r * k))); try nia; reflexivity.
Qed.
Lemma half_even_exact num den : 0 < den -> half_even (num * den) den = num.
Proof.
  intros D. unfold half_even. rewrite Z.div_mul by lia. rewrite Z.mod_mul by lia.
  destruct (Z.ltb_spec (2 * 0) den); [reflexivity|lia].
Qed.
Lemma half_even_nonneg num den : 0 < den -> 0 <= num -> 0 <= half_even num den.
Proof. intros D N. pose proof (half_even_near num den D). nia. Qed.
Lemma half_even_mono a b den : 0 < den -> a <= b -> half_even a den <= half_even b den.
Proof.
  intros D L. pose proof (half_even_near a den D) as A. pose proof (half_even_near b den D) as B.
  pose proof (half_even_tie a den D) as TA. pose proof (half_even_tie b den D) as TB.
  destruct (Z.eq_dec a b) as [->|N]; [lia|].
  destruct (Z_le_gt_dec (half_even a den) (half_even b den)) as [H|H]; [exact H|exfalso]. nia.
Qed.

Definition units (x : double) (p : nat) : Z := half_even (Z.abs (val x) * 10 ^ Z.of_nat p) (2 ^ 1074).

Lemma pow1074 : 0 < 2 ^ 1074. Proof. apply Z.pow_pos_nonneg; lia. Qed.
Lemma pow10 p : 0 < 10 ^ Z.of_nat p. Proof. apply Z.pow_pos_nonneg; lia. Qed.

Lemma valid_exponent s m e : valid (S754_finite s m e) -> -1074 <= e.
Proof.
  unfold valid, valid_binary, bounded, canonical_mantissa. intros H. apply andb_true_iff in H. destruct H as [H _].
  apply Zeq_bool_eq in H. unfold SpecFloat.fexp, SpecFloat.emin in H. lia.
Qed.
Lemma decimal_units_units s m e p : valid (S754_finite s m e) -> decimal_units (Zpos m) e p = units (S754_finite s m e) p.
Proof.
  intros V. apply valid_exponent in V. unfold units.
  assert (A : Z.abs (val (S754_finite s m e)) = Zpos m * 2 ^ (e + 1074)).
  { unfold val. rewrite Z.abs_mul. rewrite (Z.abs_eq (2 ^ (e + 1074))) by (apply Z.pow_nonneg; lia). f_equal. destruct s; reflexivity. }
  rewrite A. unfold decimal_units. pose proof pow1074 as P. pose proof (pow10 p) as Q.
  destruct (Z.leb_spec 0 e) as [E|E].
  - rewrite Z.pow_add_r by lia.
    replace (Zpos m * (2 ^ e * 2 ^ 1074) * 10 ^ Z.of_nat p) with (Zpos m * 2 ^ e * 10 ^ Z.of_nat p * 2 ^ 1074) by ring.
    symmetry. apply half_even_exact. exact P.
  - assert (K : 0 < 2 ^ (e + 1074)) by (apply Z.pow_pos_nonneg; lia).
    rewrite <- (half_even_scale _ _ (2 ^ (e + 1074))); [|apply Z.pow_pos_nonneg; lia|exact K].
    rewrite <- Z.pow_add_r by lia. replace (- e + (e + 1074)) with 1074 by lia. f_equal. ring.
Qed.

Lemma units_nearest x p : nearest_units x p (units x p).
Proof.
  unfold nearest_units, units. pose proof pow1074 as P. generalize dependent (2 ^ 1074). intros D P.
  set (v := Z.abs (val x) * 10 ^ Z.of_nat p).
  pose proof (half_even_near v D P) as N. pose proof (half_even_tie v D P) as T. split.
  - intros w. destruct (Z.eq_dec w (half_even v D)) as [->|W]; [lia|]. nia.
  - intros w W E. apply T. nia.
Qed.
Lemma nearest_units_near x p u : nearest_units x p u -> 2 * Z.abs (Z.abs (val x) * 10 ^ Z.of_nat p - u * 2 ^ 1074) <= 2 ^ 1074.
Proof.
  unfold nearest_units. pose proof pow1074 as P. generalize dependent (2 ^ 1074). intros D P.
  set (v := Z.abs (val x) * 10 ^ Z.of_nat p). intros [H _].
  pose proof (half_even_near v D P) as N. pose proof (H (half_even v D)) as W. lia.
Qed.
Lemma nearest_units_unique x p u : nearest_units x p u -> u = units x p.
Proof.
  intros H. pose proof (units_nearest x p) as K. destruct (Z.eq_dec u (units x p)) as [E|E]; [exact E|exfalso].
  pose proof (nearest_units_near _ _ _ H) as NH. pose proof (nearest_units_near _ _ _ K) as NK.
  destruct H as [H H2]. destruct K as [K K2].
  pose proof (H (units x p)) as A. pose proof (K u) as B.
  assert (EH := H2 (units x p) ltac:(lia) ltac:(lia)). assert (EK := K2 u ltac:(lia) ltac:(lia)).
  pose proof pow1074 as P. generalize dependent (2 ^ 1074). intros D. intros.
  apply Z.even_spec in EH. apply Z.even_spec in EK. destruct EH as [a EH]. destruct EK as [b EK].
  generalize dependent (Z.abs (val x) * 10 ^ Z.of_nat p). intros. nia.
Qed.

(** ** Digits *)
Lemma digit_of_char d : 0 <= d <= 9 -> digit_of (digit_char d) = d.
Proof. intros H. assert (C : d = 0 \/ d = 1 \/ d = 2 \/ d = 3 \/ d = 4 \/ d = 5 \/ d = 6 \/ d = 7 \/ d = 8 \/ d = 9) by lia. repeat destruct C as [->|C]; [reflexivity..|]. subst d. reflexivity. Qed.
Lemma is_digit_char d : 0 <= d <= 9 -> is_digit (digit_char d).
Proof. intros H. unfold is_digit. rewrite digit_of_char; lia. Qed.

Lemma number_snoc l c : number (l ++ [c]) = 10 * number l + digit_of c.
Proof. unfold number. rewrite fold_left_app. reflexivity. Qed.
Lemma number_app l k : number (l ++ k) = number l * 10 ^ Z.of_nat (List.length k) + number k.
Proof.
  induction k as [|c k IH] using rev_ind; [cbn; rewrite app_nil_r; lia|].
  rewrite app_assoc, !number_snoc, IH, app_length. cbn [List.length]. rewrite Nat2Z.inj_add, Z.pow_add_r by lia. cbn [Z.of_nat Pos.of_succ_nat]. lia.
Qed.

Lemma last_digits_acc p : forall n acc, last_digits p n acc = last_digits p n [] ++ acc.
Proof.
  induction p as [|p IH]; intros n acc; [reflexivity|]. cbn [last_digits]. rewrite IH. rewrite (IH _ [_]). rewrite <- app_assoc. reflexivity.
Qed.
Lemma last_digits_length p : forall n acc, List.length (last_digits p n acc) = (p + List.length acc)%nat.
Proof. induction p as [|p IH]; intros n acc; [reflexivity|]. cbn [last_digits]. rewrite IH. cbn. lia. Qed.
Lemma mod10 n : 0 <= n mod 10 <= 9. Proof. pose proof (Z.mod_pos_bound n 10 ltac:(lia)). lia. Qed.
Lemma last_digits_digits p : forall n acc, Forall is_digit acc -> Forall is_digit (last_digits p n acc).
Proof. induction p as [|p IH]; intros n acc H; [exact H|]. cbn [last_digits]. apply IH. constructor; [apply is_digit_char, mod10|exact H]. Qed.
Lemma last_digits_number p : forall n, 0 <= n -> number (last_digits p n []) = n mod 10 ^ Z.of_nat p.
Proof.
  induction p as [|p IH]; intros n N; [cbn; rewrite Z.mod_1_r; reflexivity|].
  cbn [last_digits]. rewrite last_digits_acc, number_snoc, IH by (apply Z.div_pos; lia). rewrite digit_of_char by apply mod10.
  rewrite Nat2Z.inj_succ, Z.pow_succ_r by lia. rewrite (Z.rem_mul_r n 10) by (try lia; apply Z.pow_nonzero; lia). lia.
Qed.

Lemma all_digits_acc f : forall n acc, all_digits f n acc = all_digits f n [] ++ acc.
Proof.
  induction f as [|f IH]; intros n acc; [reflexivity|]. cbn [all_digits]. destruct (n <? 10); [reflexivity|].
  rewrite IH. rewrite (IH _ [_]). rewrite <- app_assoc. reflexivity.
Qed.
Lemma all_digits_digits f : forall n acc, 0 <= n -> Forall is_digit acc -> Forall is_digit (all_digits f n acc).
Proof.
  induction f as [|f IH]; intros n acc N H; [exact H|]. cbn [all_digits]. destruct (Z.ltb_spec n 10).
  - constructor; [apply is_digit_char; lia|exact H].
  - apply IH; [apply Z.div_pos; lia|]. constructor; [apply is_digit_char, mod10|exact H].
Qed.
Lemma all_digits_number f : forall n, 0 <= n < 10 ^ Z.of_nat f -> number (all_digits f n []) = n.
Proof.
  induction f as [|f IH]; intros n N; [cbn in *; lia|]. rewrite Nat2Z.inj_succ, Z.pow_succ_r in N by lia.
  cbn [all_digits]. destruct (Z.ltb_spec n 10) as [L|L].
  - unfold number. cbn [fold_left]. rewrite digit_of_char by lia. lia.
  - rewrite all_digits_acc, number_snoc, digit_of_char by apply mod10. rewrite IH.
    + pose proof (Z.div_mod n 10). lia.
    + split; [apply Z.div_pos; lia|apply Z.div_lt_upper_bound; lia].
Qed.
Lemma digit_char_zero d : 0 <= d <= 9 -> digit_char d = "0"%char -> d = 0.
Proof. intros D E. rewrite <- (digit_of_char d D), E. reflexivity. Qed.
Lemma all_digits_first f : forall n, 0 < n < 10 ^ Z.of_nat f -> exists c r, all_digits f n [] = c :: r /\ c <> "0"%char.
Proof.
  induction f as [|f IH]; intros n N; [cbn in *; lia|]. rewrite Nat2Z.inj_succ, Z.pow_succ_r in N by lia.
  cbn [all_digits]. destruct (Z.ltb_spec n 10) as [L|L].
  - exists (digit_char n), []. split; [reflexivity|]. intros E. apply digit_char_zero in E; lia.
  - rewrite all_digits_acc. destruct (IH (n / 10)) as (c & r & E & C).
    + split; [apply Z.div_str_pos; lia|apply Z.div_lt_upper_bound; lia].
    + rewrite E. exists c, (r ++ [digit_char (n mod 10)]). split; [reflexivity|exact C].
Qed.
Lemma fuel_enough n : 0 <= n -> n < 10 ^ Z.of_nat (S (Z.to_nat (Z.log2 n))).
Proof.
  intros N. destruct (Z.eq_dec n 0) as [->|Z]; [reflexivity|].
  rewrite Nat2Z.inj_succ, Z2Nat.id by apply Z.log2_nonneg.
  pose proof (Z.log2_spec n ltac:(lia)) as [_ U]. eapply Z.lt_le_trans; [exact U|]. apply Z.pow_le_mono_l. lia.
Qed.
Lemma write_units_tells u p (neg : bool) : 0 <= u -> tells ((if neg then ["-"%char] else []) ++ write_units u p) neg u p.
Proof.
  intros U. pose proof (pow10 p) as P. set (w := u / 10 ^ Z.of_nat p). assert (W : 0 <= w) by (apply Z.div_pos; lia).
  pose proof (fuel_enough w W) as F. set (fuel := S (Z.to_nat (Z.log2 w))) in *.
  exists (all_digits fuel w []), (last_digits p (u mod 10 ^ Z.of_nat p) []). split; [|split; [|split; [|split; [|split; [|split]]]]].
  - unfold write_units. fold w. fold fuel. f_equal.
  - apply all_digits_digits; [exact W|constructor].
  - apply last_digits_digits. constructor.
  - unfold fuel. cbn [all_digits]. destruct (w <? 10); [discriminate|]. rewrite all_digits_acc. intros E. symmetry in E. revert E. apply app_cons_not_nil.
  - rewrite last_digits_length. cbn. lia.
  - intros c r E. destruct (Z.eq_dec w 0) as [Z|Z].
    + unfold fuel in E. rewrite Z in E. cbn in E. discriminate E.
    + destruct (all_digits_first fuel w ltac:(lia)) as (c' & r' & E' & C). rewrite E' in E. injection E as -> _. exact (C eq_refl).
  - rewrite number_app, last_digits_length, last_digits_number by (apply Z.mod_pos_bound; exact P). cbn [List.length]. rewrite Nat.add_0_r.
    rewrite all_digits_number by (split; assumption). rewrite Z.mod_mod by lia. unfold w. pose proof (Z.div_mod u (10 ^ Z.of_nat p) ltac:(lia)). lia.
Qed.
Lemma write_fixed_tells x p : is_double x -> tells (write_fixed x p) (sign_bit x) (units x p) p.
Proof.
  intros [V F]. destruct x as [s|s| |s m e]; try discriminate F; cbn [write_fixed sign_bit].
  - replace (units (S754_zero s) p) with 0; [apply write_units_tells; lia|]. unfold units. cbn [val Z.abs]. rewrite Z.mul_0_l.
    symmetry. exact (half_even_exact 0 (2 ^ 1074) pow1074).
  - rewrite <- (decimal_units_units s m e p V). apply write_units_tells. rewrite (decimal_units_units s m e p V). unfold units.
    apply half_even_nonneg; [apply pow1074|]. pose proof (pow10 p). nia.
Qed.

(** ** A text tells one thing *)
Lemma digit_not c d : is_digit c -> (digit_of d < 0) -> c <> d.
Proof. unfold is_digit. intros H D ->. lia. Qed.
Lemma split_point : forall whole whole' r r', Forall is_digit whole -> Forall is_digit whole' ->
  (r = [] \/ exists k, r = "."%char :: k) -> (r' = [] \/ exists k, r' = "."%char :: k) -> whole ++ r = whole' ++ r' -> whole = whole' /\ r = r'.
Proof.
  assert (X : forall c, is_digit c -> c <> "."%char) by (intros c H; apply digit_not; [exact H|reflexivity]).
  induction whole as [|c w IH]; intros [|c' w'] r r' H H' R R' E; cbn [app] in E.
  - auto.
  - apply Forall_inv in H'. destruct R as [->|[k ->]]; [discriminate E|]. injection E as E _. exfalso. exact (X _ H' (eq_sym E)).
  - apply Forall_inv in H. destruct R' as [->|[k ->]]; [discriminate E|]. injection E as E _. exfalso. exact (X _ H E).
  - injection E as -> E. apply Forall_inv_tail in H. apply Forall_inv_tail in H'. destruct (IH w' r r' H H' R R' E) as [-> ->]. auto.
Qed.
Lemma tells_unique s n u p n' u' p' : tells s n u p -> tells s n' u' p' -> n = n' /\ u = u' /\ p = p'.
Proof.
  intros (w & f & E & W & F & NE & L & _ & U) (w' & f' & E' & W' & F' & NE' & L' & _ & U').
  assert (N : n = n' /\ w ++ match p with O => [] | S _ => "."%char :: f end = w' ++ match p' with O => [] | S _ => "."%char :: f' end).
  { rewrite E in E'. destruct w as [|c w]; [contradiction|]. destruct w' as [|c' w']; [contradiction|].
    apply Forall_inv in W. apply Forall_inv in W'.
    destruct n, n'; cbn [app] in E'.
    - injection E' as E1 E2. split; [reflexivity|]. cbn [app]. rewrite E1, E2. reflexivity.
    - injection E' as E1 _. exfalso. symmetry in E1. revert E1. apply digit_not; [exact W'|reflexivity].
    - injection E' as E1 _. exfalso. revert E1. apply digit_not; [exact W|reflexivity].
    - split; [reflexivity|exact E']. }
  destruct N as [N M]. split; [exact N|].
  apply split_point in M; [|exact W|exact W'|destruct p; [left; reflexivity|right; eexists; reflexivity]|destruct p'; [left; reflexivity|right; eexists; reflexivity]].
  destruct M as [-> M]. destruct p as [|p], p' as [|p']; try discriminate M.
  - destruct f; [|discriminate L]. destruct f'; [|discriminate L']. split; [congruence|reflexivity].
  - injection M as ->. split; congruence.
Qed.
