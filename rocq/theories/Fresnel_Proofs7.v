(** Both formulas agree where one takes over from the other; the second formula is close to the
    integrals from there on. *)
From Coq Require Import Reals ZArith QArith Qreals List Lra Lia Psatz Bool.
Import ListNotations.
From Verif Require Import Fresnel_Model Fresnel_Spec Fresnel_Proofs Fresnel_Proofs2 Fresnel_Proofs3 Fresnel_Proofs4
  Fresnel_Proofs5 Fresnel_Proofs6.
Local Open Scope R_scope.

Definition x0 : R := sqrt 41 / 4.
Lemma x0_square : x0 * x0 = 41 / 16.
Proof. unfold x0. pose proof (sqrt_sqrt 41 ltac:(lra)). nra. Qed.
Lemma x0_pos : 0 < x0.
Proof. unfold x0. pose proof (sqrt_lt_R0 41 ltac:(lra)). lra. Qed.

Definition cst_t0 : expr := Cst (1681 # 256).
Fixpoint hx (p : list Z) (e : expr) : expr :=
  match p with [] => Int 0 | c :: p => Add (Int c) (Mul e (hx p e)) end.

Lemma Q2R_zero : Q2R 0 = 0.
Proof. unfold Q2R. cbn. ring. Qed.
Lemma hx_value : forall env p e, eval env (hx p e) = pe p (eval env e).
Proof.
  intros env p e. induction p as [|c p IH]; cbn [hx eval pe]; [reflexivity|]. rewrite IH. reflexivity.
Qed.

(** Variables: pi, x0, u, and the errors of the cosine and the sine. *)
Definition quarter_pi41 : R := PI / 2 * (41 / 16).
Definition cos_value : R := nest 0 16 0 (half_pi * half_pi * (1681 / 256)).
Definition sin_value : R := 41 / 16 * (half_pi * nest 1 16 0 (half_pi * half_pi * (1681 / 256))).
Definition env (n : nat) : R :=
  match n with
  | 0%nat => PI | 1%nat => x0 | 2%nat => uu x0
  | 3%nat => cos quarter_pi41 | 4%nat => sin quarter_pi41
  | _ => 0
  end.
Definition q1 : Q * Q := (6403124237432848686488217 # 4 * 10 ^ 24, 6403124237432848686488218 # 4 * 10 ^ 24)%Q.
Definition ncos : Z := Eval vm_compute in pz TC 1.
Definition nsin : Z := Eval vm_compute in (41 * pz TS 1 / 16)%Z.
Definition q3 : Q * Q := (ncos - 3000000 # 10 ^ 22, ncos + 3000000 # 10 ^ 22)%Q.
Definition q4 : Q * Q := (nsin - 3000000 # 10 ^ 22, nsin + 3000000 # 10 ^ 22)%Q.
Definition fixed (q : Q * Q) : Z * Z := (qdown (fst q), qup (snd q)).
Definition e_u : expr := Div (Int 1) (Mul (Mul (Var 0) (Cst (41 # 16))) (Mul (Var 0) (Cst (41 # 16)))).
Definition f0 : Z * Z := Eval vm_compute in fixed (pi_lo, pi_hi).
Definition f1 : Z * Z := Eval vm_compute in fixed q1.
Definition f2 : Z * Z := Eval vm_compute in match enclose (fun _ => f0) e_u with Some p => p | None => (0, 0)%Z end.
Definition f3 : Z * Z := Eval vm_compute in fixed q3.
Definition f4 : Z * Z := Eval vm_compute in fixed q4.
Definition qenv (n : nat) : Z * Z :=
  match n with 0%nat => f0 | 1%nat => f1 | 2%nat => f2 | 3%nat => f3 | 4%nat => f4 | _ => (0, 0)%Z end.

Lemma f0_eq : fixed (pi_lo, pi_hi) = f0.
Proof. vm_compute. reflexivity. Qed.
Lemma f1_eq : fixed q1 = f1.
Proof. vm_compute. reflexivity. Qed.
Lemma f2_eq : enclose (fun _ => f0) e_u = Some f2.
Proof. vm_compute. reflexivity. Qed.
Lemma f3_eq : fixed q3 = f3.
Proof. vm_compute. reflexivity. Qed.
Lemma f4_eq : fixed q4 = f4.
Proof. vm_compute. reflexivity. Qed.

Lemma fixed_bounds : forall q x, Q2R (fst q) <= x <= Q2R (snd q) -> IZR (fst (fixed q)) <= x * unit_ <= IZR (snd (fixed q)).
Proof.
  intros [a b] x h. cbn [fixed fst snd] in *. pose proof unit_pos. pose proof (qdown_le a). pose proof (qdown_le b). nra.
Qed.

Lemma Q2R_frac : forall a b, Q2R (a # b) = IZR a / IZR (Zpos b).
Proof. intros. reflexivity. Qed.

Lemma sqrt_bounds : Q2R (fst q1) <= x0 <= Q2R (snd q1).
Proof.
  unfold q1. cbn [fst snd]. rewrite !Q2R_frac.
  set (a := 6403124237432848686488217%Z). set (b := 6403124237432848686488218%Z).
  change (Zpos (4 * 10 ^ 24)) with 4000000000000000000000000%Z.
  assert (ha : IZR a / 4000000000000000000000000 * (IZR a / 4000000000000000000000000) <= 41 / 16) by (unfold a; lra).
  assert (hb : 41 / 16 <= IZR b / 4000000000000000000000000 * (IZR b / 4000000000000000000000000)) by (unfold b; lra).
  assert (0 < IZR a / 4000000000000000000000000) by (unfold a; lra).
  assert (0 < IZR b / 4000000000000000000000000) by (unfold b; lra).
  pose proof x0_square as hs. pose proof x0_pos as hp.
  split; nra.
Qed.

Lemma pi_fixed : IZR (fst f0) <= PI * unit_ <= IZR (snd f0).
Proof. rewrite <- f0_eq. apply fixed_bounds, pi_bounds. Qed.

Lemma u_bounds : IZR (fst f2) <= uu x0 * unit_ <= IZR (snd f2).
Proof.
  assert (hv : eval (fun _ => PI) e_u = uu x0).
  { unfold e_u. cbn [eval]. unfold uu, zz. rewrite x0_square, Q2R_frac. pose proof PI_RGT_0. field. lra. }
  rewrite <- hv. apply (enclose_sound (fun _ => PI) (fun _ => f0) (fun _ => pi_fixed)). rewrite f2_eq. reflexivity.
Qed.

Lemma abs_range : forall x e, Rabs x <= e -> - e <= x <= e.
Proof. intros x e h. pose proof (Rle_abs x). pose proof (Rle_abs (- x)). rewrite Rabs_Ropp in *. lra. Qed.

Lemma decimals : forall n x v y r, r = IZR rr -> Rabs (x - v) <= 2 / 10 ^ 16 -> Rabs (y - r * v) <= 5000 -> Rabs (y - IZR n) <= 1 ->
  Q2R (n - 3000000 # 10 ^ 22) <= x <= Q2R (n + 3000000 # 10 ^ 22).
Proof.
  intros n x v y r -> h hv hy. rewrite !Q2R_frac, minus_IZR, plus_IZR. unfold rr in *.
  change (Zpos (10 ^ 22)) with 10000000000000000000000%Z. change (10 ^ 22)%Z with 10000000000000000000000%Z in hv.
  apply abs_range in h. apply abs_range in hv. apply abs_range in hy.
  replace (10 ^ 16) with 10000000000000000 in h by ring. split; lra.
Qed.

Lemma ends : 256 / 1681 * (1681 / 256) = IZR 1.
Proof. lra. Qed.

Lemma cos_bounds : Q2R (fst q3) <= cos quarter_pi41 <= Q2R (snd q3).
Proof.
  assert (hr : 0 <= 41 / 16 <= 41 / 16) by lra. assert (ht : 0 <= 1681 / 256 <= 1681 / 256) by lra.
  apply (decimals ncos _ cos_value (IZR (pz TC 1)) _ eq_refl).
  - unfold quarter_pi41, cos_value. replace (1681 / 256) with (41 / 16 * (41 / 16)) by field. apply cos_close. assumption.
  - pose proof (TC_close _ ht) as h. rewrite ends, pe_z in h. fold cos_value in h. lra.
  - rewrite <- minus_IZR. replace (pz TC 1 - ncos)%Z with 0%Z by (vm_compute; reflexivity). rewrite Rabs_R0. lra.
Qed.

Lemma sin_bounds : Q2R (fst q4) <= sin quarter_pi41 <= Q2R (snd q4).
Proof.
  assert (hr : 0 <= 41 / 16 <= 41 / 16) by lra. assert (ht : 0 <= 1681 / 256 <= 1681 / 256) by lra.
  apply (decimals nsin _ sin_value (41 / 16 * IZR (pz TS 1)) _ eq_refl).
  - unfold quarter_pi41, sin_value. replace (1681 / 256) with (41 / 16 * (41 / 16)) by field. apply sin_close. assumption.
  - pose proof (TS_close _ ht) as h. rewrite ends, pe_z in h. unfold sin_value.
    set (w := half_pi * nest 1 16 0 (half_pi * half_pi * (1681 / 256))) in *. set (p := IZR (pz TS 1)) in *.
    replace (41 / 16 * p - IZR rr * (41 / 16 * w)) with (41 / 16 * (p - IZR rr * w)) by ring.
    rewrite Rabs_mult, (Rabs_pos_eq (41 / 16)) by lra. lra.
  - assert (h1 : (16 * nsin <= 41 * pz TS 1)%Z) by (apply Z.leb_le; vm_compute; reflexivity).
    assert (h2 : (41 * pz TS 1 <= 16 * nsin + 16)%Z) by (apply Z.leb_le; vm_compute; reflexivity).
    apply IZR_le in h1. apply IZR_le in h2. rewrite plus_IZR, !mult_IZR in *. apply Rabs_le. lra.
Qed.

Lemma env_bounds : forall n, IZR (fst (qenv n)) <= env n * unit_ <= IZR (snd (qenv n)).
Proof.
  intros [|[|[|[|[|n]]]]]; cbn [qenv env].
  - apply pi_fixed.
  - rewrite <- f1_eq. apply fixed_bounds, sqrt_bounds.
  - apply u_bounds.
  - rewrite <- f3_eq. apply fixed_bounds, cos_bounds.
  - rewrite <- f4_eq. apply fixed_bounds, sin_bounds.
  - cbn [fst snd]. lra.
Qed.

Definition e_f : expr := Sub (Int 1) (Mul (Var 2) (Div (hx ZFn (Var 2)) (hx ZFd (Var 2)))).
Definition e_g : expr := Mul (Div (Int 1) (Mul (Var 0) (Cst (41 # 16)))) (Div (hx ZGn (Var 2)) (hx ZGd (Var 2))).
Definition e_pix : expr := Div (Int 1) (Mul (Var 0) (Var 1)).
Definition e_C : expr :=
  Sub (Mul (Var 1) (Div (hx ZCn cst_t0) (hx ZCd cst_t0)))
      (Add (Cst (1 # 2)) (Mul (Sub (Mul e_f (Var 4)) (Mul e_g (Var 3))) e_pix)).
Definition e_S : expr :=
  Sub (Mul (Mul (Var 1) (Cst (41 # 16))) (Div (hx ZSn cst_t0) (hx ZSd cst_t0)))
      (Sub (Cst (1 # 2)) (Mul (Add (Mul e_f (Var 3)) (Mul e_g (Var 4))) e_pix)).

(** 12379400392853 is just below 2^90 / 10^14. *)
Lemma small_e_C : small qenv e_C 12379400392853 = true.
Proof. vm_compute. reflexivity. Qed.
Lemma small_e_S : small qenv e_S 12379400392853 = true.
Proof. vm_compute. reflexivity. Qed.
