(** Twenty digits of pi, and interval arithmetic with rational bounds. *)
From Coq Require Import Reals ZArith QArith Qreals List Lra Lia Machin Ratan Psatz Bool Qminmax.
Import ListNotations.
Local Open Scope R_scope.

(** The terms of Machin's series in Q. *)
Fixpoint qpow (x : Q) (n : nat) : Q := match n with O => 1%Q | S n => Qred (x * qpow x n) end.
Definition qterm (n : nat) : Q :=
  let m := inject_Z (Z.of_nat (2 * n + 1)) in
  (2 * (qpow (1 # 3) (2 * n + 1) / m) + qpow (1 # 7) (2 * n + 1) / m)%Q.
Definition qalt (n : nat) : Q := if Nat.even n then qterm n else (- qterm n)%Q.
Fixpoint qsum (n : nat) : Q := match n with O => qalt 0 | S m => Qred (qsum m + qalt n) end.

Lemma Q2R_red : forall q, Q2R (Qred q) = Q2R q.
Proof. intro q. apply Qeq_eqR, Qred_correct. Qed.

Lemma qpow_value : forall x n, Q2R (qpow x n) = Q2R x ^ n.
Proof.
  intros x n. induction n as [|n IH]; cbn [qpow pow]; [unfold Q2R; cbn; field|].
  rewrite Q2R_red, Q2R_mult, IH. reflexivity.
Qed.

Lemma Q2R_Z : forall z, Q2R (inject_Z z) = IZR z.
Proof. intro z. unfold Q2R. cbn. field. Qed.

Lemma qterm_value : forall n, Q2R (qterm n) = PI_2_3_7_tg n.
Proof.
  intro n. unfold qterm, PI_2_3_7_tg, Ratan_seq.
  assert (hm : ~ (inject_Z (Z.of_nat (2 * n + 1)) == 0)%Q).
  { intro h. apply Qeq_eqR in h. rewrite Q2R_Z in h. unfold Q2R in h. cbn in h. rewrite Rmult_0_l in h.
    apply eq_IZR_R0 in h. lia. }
  rewrite Q2R_plus, Q2R_mult, !Q2R_div by assumption.
  rewrite !qpow_value, Q2R_Z, <- INR_IZR_INZ.
  replace (Q2R (1 # 3)) with (/ 3) by (unfold Q2R; cbn; field).
  replace (Q2R (1 # 7)) with (/ 7) by (unfold Q2R; cbn; field).
  replace (Q2R 2) with 2 by (unfold Q2R; cbn; field). reflexivity.
Qed.

Lemma qalt_value : forall n, Q2R (qalt n) = tg_alt PI_2_3_7_tg n.
Proof.
  intro n. unfold qalt, tg_alt. rewrite <- qterm_value.
  destruct (Nat.even n) eqn:e.
  - apply Nat.even_spec in e as [m ->]. rewrite pow_1_even. lra.
  - assert (o : Nat.odd n = true) by (rewrite <- Nat.negb_even, e; reflexivity).
    apply Nat.odd_spec in o as [m ->]. rewrite Nat.add_1_r, pow_1_odd, Q2R_opp. lra.
Qed.

Lemma qsum_value : forall n, Q2R (qsum n) = sum_f_R0 (tg_alt PI_2_3_7_tg) n.
Proof.
  induction n as [|n IH]; cbn [qsum sum_f_R0]; [apply qalt_value|].
  rewrite Q2R_red, Q2R_plus, IH, qalt_value. reflexivity.
Qed.

Definition pi_lo : Q := (314159265358979323846 # 100000000000000000000)%Q.
Definition pi_hi : Q := (314159265358979323847 # 100000000000000000000)%Q.

Lemma pi_bounds : Q2R pi_lo <= PI <= Q2R pi_hi.
Proof.
  destruct (PI_2_3_7_ineq 11) as [h1 h2]. rewrite <- !qsum_value in *.
  assert (l1 : Q2R (pi_lo * (1 # 4)) <= Q2R (qsum (S (2 * 11)))) by (apply Qle_Rle, Qle_bool_iff; vm_compute; reflexivity).
  assert (l2 : Q2R (qsum (2 * 11)) <= Q2R (pi_hi * (1 # 4))) by (apply Qle_Rle, Qle_bool_iff; vm_compute; reflexivity).
  rewrite Q2R_mult in *. replace (Q2R (1 # 4)) with (/ 4) in * by (unfold Q2R; cbn; field). lra.
Qed.

(** Interval arithmetic with numbers scaled by 2^90. *)
Inductive expr := Int (z : Z) | Cst (q : Q) | Var (n : nat) | Add (a b : expr) | Mul (a b : expr) | Div (a b : expr).
Definition Sub a b := Add a (Mul (Int (-1)) b).

Fixpoint eval (env : nat -> R) (e : expr) : R :=
  match e with
  | Int z => IZR z | Cst q => Q2R q | Var n => env n
  | Add a b => eval env a + eval env b | Mul a b => eval env a * eval env b
  | Div a b => eval env a / eval env b
  end.

Definition scaled (x : Z) : Z := Z.shiftl x 90.
Definition down (x : Z) : Z := Z.shiftr x 90.
Definition up (x : Z) : Z := (- Z.shiftr (- x) 90)%Z.
Definition qdown (q : Q) : Z := (scaled (Qnum q) / Zpos (Qden q))%Z.
Definition qup (q : Q) : Z := (scaled (Qnum q) / Zpos (Qden q) + 1)%Z.
Definition unit_ : R := IZR (2 ^ 90).

Fixpoint enclose (env : nat -> Z * Z) (e : expr) : option (Z * Z) :=
  match e with
  | Int z => let s := scaled z in Some (s, s)
  | Cst q => Some (qdown q, qup q) | Var n => Some (env n)
  | Add a b =>
    match enclose env a, enclose env b with
    | Some (a1, a2), Some (b1, b2) => Some (a1 + b1, a2 + b2)%Z
    | _, _ => None
    end
  | Mul a b =>
    match enclose env a, enclose env b with
    | Some (a1, a2), Some (b1, b2) =>
      if (0 <=? a1)%Z && (0 <=? b1)%Z then Some (down (a1 * b1), up (a2 * b2)) else
      let p := (a1 * b1)%Z in let q := (a1 * b2)%Z in let r := (a2 * b1)%Z in let s := (a2 * b2)%Z in
      Some (down (Z.min (Z.min p q) (Z.min r s)), up (Z.max (Z.max p q) (Z.max r s)))
    | _, _ => None
    end
  | Div a b =>
    match enclose env a, enclose env b with
    | Some (a1, a2), Some (b1, b2) =>
      if (0 <=? a1)%Z && (0 <? b1)%Z then Some (scaled a1 / b2, scaled a2 / b1 + 1)%Z else None
    | _, _ => None
    end
  end.

Lemma unit_pos : 0 < unit_.
Proof. apply IZR_lt. reflexivity. Qed.
Lemma scaled_value : forall x, IZR (scaled x) = IZR x * unit_.
Proof. intro x. unfold scaled, unit_. rewrite Z.shiftl_mul_pow2, mult_IZR by lia. reflexivity. Qed.
Lemma down_le : forall x, IZR (down x) * unit_ <= IZR x.
Proof.
  intro x. unfold down, unit_. rewrite Z.shiftr_div_pow2 by lia. rewrite <- mult_IZR. apply IZR_le.
  rewrite Z.mul_comm. apply Z.mul_div_le. reflexivity.
Qed.
Lemma up_le : forall x, IZR x <= IZR (up x) * unit_.
Proof. intro x. pose proof (down_le (- x)) as h. unfold down in h. unfold up. rewrite opp_IZR in *. lra. Qed.
Lemma floor_bounds : forall a b, (0 < b)%Z -> IZR (a / b) * IZR b <= IZR a < IZR (a / b + 1) * IZR b.
Proof.
  intros a b hb. rewrite <- !mult_IZR. pose proof (Z.mul_div_le a b hb). pose proof (Z.mul_succ_div_gt a b hb).
  split; [apply IZR_le|apply IZR_lt]; lia.
Qed.
Lemma qdown_le : forall q, IZR (qdown q) <= Q2R q * unit_ <= IZR (qup q).
Proof.
  intro q. unfold qdown, qup, Q2R. destruct (floor_bounds (scaled (Qnum q)) (Zpos (Qden q)) eq_refl) as [h1 h2].
  rewrite scaled_value in h1, h2. assert (hd : 0 < IZR (Zpos (Qden q))) by (apply IZR_lt; reflexivity).
  split; apply Rmult_le_reg_r with (IZR (Zpos (Qden q))); try assumption;
    replace (IZR (Qnum q) * / IZR (Zpos (Qden q)) * unit_ * IZR (Zpos (Qden q))) with (IZR (Qnum q) * unit_) by (field; lra); lra.
Qed.

Lemma mul_bounds : forall a1 a2 b1 b2 x y l h, a1 <= x <= a2 -> b1 <= y <= b2 ->
  l <= a1 * b1 -> l <= a1 * b2 -> l <= a2 * b1 -> l <= a2 * b2 ->
  a1 * b1 <= h -> a1 * b2 <= h -> a2 * b1 <= h -> a2 * b2 <= h -> l <= x * y <= h.
Proof.
  intros. split.
  - destruct (Rle_dec 0 y).
    + apply Rle_trans with (a1 * y); [|nra]. destruct (Rle_dec 0 a1); nra.
    + apply Rle_trans with (a2 * y); [|nra]. destruct (Rle_dec 0 a2); nra.
  - destruct (Rle_dec 0 y).
    + apply Rle_trans with (a2 * y); [nra|]. destruct (Rle_dec 0 a2); nra.
    + apply Rle_trans with (a1 * y); [nra|]. destruct (Rle_dec 0 a1); nra.
Qed.

Lemma rescale : forall x y l h, IZR l <= (x * unit_) * (y * unit_) <= IZR h -> IZR (down l) <= x * y * unit_ <= IZR (up h).
Proof.
  intros x y l h hb. pose proof unit_pos. pose proof (down_le l). pose proof (up_le h).
  split; apply Rmult_le_reg_r with unit_; try assumption; lra.
Qed.

Lemma enclose_sound : forall env qenv, (forall n, IZR (fst (qenv n)) <= env n * unit_ <= IZR (snd (qenv n))) ->
  forall e l h, enclose qenv e = Some (l, h) -> IZR l <= eval env e * unit_ <= IZR h.
Proof.
  intros env qenv henv. pose proof unit_pos as hu.
  induction e as [z|q|n|a IHa b IHb|a IHa b IHb|a IHa b IHb]; intros l h he; cbn [enclose eval] in *.
  - cbv zeta in he. injection he as <- <-. rewrite scaled_value. lra.
  - assert (l = qdown q) as -> by congruence. assert (h = qup q) as -> by congruence. apply qdown_le.
  - injection he as he. specialize (henv n). rewrite he in henv. exact henv.
  - destruct (enclose qenv a) as [[a1 a2]|]; [|discriminate]. destruct (enclose qenv b) as [[b1 b2]|]; [|discriminate].
    injection he as <- <-. specialize (IHa _ _ eq_refl). specialize (IHb _ _ eq_refl). rewrite !plus_IZR. lra.
  - destruct (enclose qenv a) as [[a1 a2]|]; [|discriminate]. destruct (enclose qenv b) as [[b1 b2]|]; [|discriminate].
    specialize (IHa _ _ eq_refl). specialize (IHb _ _ eq_refl).
    destruct ((0 <=? a1)%Z && (0 <=? b1)%Z) eqn:hs; cbv zeta in he.
    + assert (l = down (a1 * b1)) as -> by congruence. assert (h = up (a2 * b2)) as -> by congruence.
      apply andb_true_iff in hs as [s1 s2]. apply Z.leb_le, IZR_le in s1. apply Z.leb_le, IZR_le in s2.
      apply rescale. rewrite !mult_IZR. set (x := eval env a * unit_) in *. set (y := eval env b * unit_) in *. split; nra.
    + set (p := (a1 * b1)%Z) in *. set (q := (a1 * b2)%Z) in *. set (r := (a2 * b1)%Z) in *. set (s := (a2 * b2)%Z) in *.
      assert (l = down (Z.min (Z.min p q) (Z.min r s))) as -> by congruence.
      assert (h = up (Z.max (Z.max p q) (Z.max r s))) as -> by congruence.
      assert (hp : IZR p = IZR a1 * IZR b1) by apply mult_IZR. assert (hq : IZR q = IZR a1 * IZR b2) by apply mult_IZR.
      assert (hr : IZR r = IZR a2 * IZR b1) by apply mult_IZR. assert (hs' : IZR s = IZR a2 * IZR b2) by apply mult_IZR.
      apply rescale. apply (mul_bounds (IZR a1) (IZR a2) (IZR b1) (IZR b2)); try assumption;
        rewrite <- ?hp, <- ?hq, <- ?hr, <- ?hs'; apply IZR_le; lia.
  - destruct (enclose qenv a) as [[a1 a2]|]; [|discriminate]. destruct (enclose qenv b) as [[b1 b2]|]; [|discriminate].
    specialize (IHa _ _ eq_refl). specialize (IHb _ _ eq_refl).
    destruct ((0 <=? a1)%Z && (0 <? b1)%Z) eqn:hs; [|discriminate].
    assert (l = (scaled a1 / b2)%Z) as -> by congruence. assert (h = (scaled a2 / b1 + 1)%Z) as -> by congruence.
    apply andb_true_iff in hs as [s1 s2]. apply Z.leb_le, IZR_le in s1. apply Z.ltb_lt in s2. apply IZR_lt in s2 as s2'.
    set (x := eval env a) in *. set (y := eval env b) in *.
    assert (hy : 0 < y) by nra. assert (hx : 0 <= x) by nra.
    assert (s3 : (0 < b2)%Z) by (apply lt_IZR; lra).
    destruct (floor_bounds (scaled a1) b2 s3) as [k1 _]. destruct (floor_bounds (scaled a2) b1 s2) as [_ k2].
    rewrite scaled_value in k1, k2. apply IZR_lt in s3.
    assert (e : x / y * unit_ * y = x * unit_) by (field; lra).
    set (w := x / y * unit_) in *.
    assert (hw : 0 <= w) by (apply Rmult_le_pos; [apply Rmult_le_pos; [assumption|left; apply Rinv_0_lt_compat; assumption]|lra]).
    split.
    + apply Rmult_le_reg_r with (IZR b2); [assumption|]. apply Rle_trans with (1 := k1).
      apply Rle_trans with (x * unit_ * unit_); [apply Rmult_le_compat_r; lra|]. rewrite <- e, Rmult_assoc. apply Rmult_le_compat_l; lra.
    + apply Rmult_le_reg_r with (IZR b1); [assumption|]. apply Rlt_le, Rle_lt_trans with (2 := k2).
      apply Rle_trans with (x * unit_ * unit_); [|apply Rmult_le_compat_r; lra]. rewrite <- e, (Rmult_assoc w). apply Rmult_le_compat_l; lra.
Qed.

(** A bound on the size of a value, by computation. *)
Definition small (env : nat -> Z * Z) (e : expr) (b : Z) : bool :=
  match enclose env e with Some (l, h) => (- b <=? l)%Z && (h <=? b)%Z | None => false end.
Lemma small_sound : forall env qenv e b, (forall n, IZR (fst (qenv n)) <= env n * unit_ <= IZR (snd (qenv n))) ->
  small qenv e b = true -> Rabs (eval env e) <= IZR b / unit_.
Proof.
  intros env qenv e b henv h. unfold small in h. destruct (enclose qenv e) as [[l u]|] eqn:he; [|discriminate].
  apply andb_true_iff in h as [h1 h2]. apply Z.leb_le, IZR_le in h1. apply Z.leb_le, IZR_le in h2.
  rewrite opp_IZR in h1. pose proof (enclose_sound env qenv henv e l u he) as hb. pose proof unit_pos as hu.
  set (w := IZR b / unit_). assert (e1 : w * unit_ = IZR b) by (unfold w; field; lra).
  apply Rabs_le. split; apply Rmult_le_reg_r with unit_; try assumption; lra.
Qed.
