(** Proofs about the comparison functions over IEEE doubles. *)
From Coq Require Import List ZArith Bool Arith Lia.
From Coq Require Import Floats.SpecFloat.
From Verif Require Import Base Binary64 RuleStates_Model Compare_Model.
Import ListNotations.

Lemma round_abs sx sy m e : fabs (binary_round 53 1024 sx m e) = fabs (binary_round 53 1024 sy m e).
Proof.
  unfold binary_round, binary_round_aux. destruct (shl_align m e (fexp 53 1024 (Z.pos (digits2_pos m) + e))) as [mz ez].
  destruct (shr_fexp 53 1024 (Z.pos mz) ez loc_Exact) as [r1 e1].
  destruct (shr_fexp 53 1024 (round_nearest_even (shr_m r1) (loc_of_shr_record r1)) e1 loc_Exact) as [r2 e2].
  destruct (shr_m r2); try reflexivity. destruct (Z.leb e2 (1024 - 53)); reflexivity.
Qed.
Lemma normalize_opp m e : fabs (binary_normalize 53 1024 (- m) e false) = fabs (binary_normalize 53 1024 m e false).
Proof. destruct m; cbn [Z.opp binary_normalize]; try reflexivity; apply round_abs. Qed.
Lemma fsub_abs a b : fabs (fsub a b) = fabs (fsub b a).
Proof.
  unfold fsub, SFsub. destruct a as [sa|sa| |sa ma ea], b as [sb|sb| |sb mb eb]; try reflexivity.
  all: try (destruct sa, sb; reflexivity).
  rewrite (Z.min_comm eb ea). rewrite <- normalize_opp. do 2 f_equal. lia.
Qed.
Lemma far_d_sym t a b : far_d t a b = far_d t b a.
Proof. unfold far_d. rewrite fsub_abs. reflexivity. Qed.
Lemma far_d_nan t b : far_d t fnan b = false.
Proof. destruct b, t as [[]|[]| |[]]; reflexivity. Qed.

(** Absolute values have no sign. *)
Definition unsigned (x : double) : Prop := match x with S754_zero s | S754_infinity s | S754_finite s _ _ => s = false | S754_nan => True end.
Lemma fabs_unsigned x : unsigned (fabs x).
Proof. destruct x; reflexivity || exact I. Qed.
Lemma compare_eq x y : unsigned x -> unsigned y -> SFcompare x y = Some Eq -> x = y.
Proof.
  destruct x as [s|s| |s m e], y as [u|u| |u n f]; cbn; intros X Y; subst; try discriminate; auto.
  destruct (Z.compare_spec e f) as [->| |]; try discriminate. intro H. injection H as H.
  assert (m = n) by (apply Pos.compare_eq; exact H). congruence.
Qed.
Lemma SFcompare_swap x y : SFcompare y x = match SFcompare x y with Some c => Some (CompOpp c) | None => None end.
Proof.
  destruct x as [s|s| |s m e], y as [u|u| |u n f]; cbn; try reflexivity; try (destruct s; reflexivity); try (destruct u; reflexivity);
    try (destruct s, u; reflexivity).
  destruct s, u; try reflexivity; rewrite (Z.compare_antisym e f); destruct (e ?= f)%Z; cbn; try reflexivity.
  all: try (change (Pos.compare_cont Eq n m) with (n ?= m)%positive; change (Pos.compare_cont Eq m n) with (m ?= n)%positive;
            rewrite (Pos.compare_antisym m n); destruct (m ?= n)%positive; reflexivity).
Qed.
Lemma fmax_comm x y : unsigned x -> unsigned y -> fmax x y = fmax y x \/ (is_nan x = true \/ is_nan y = true).
Proof.
  intros X Y. destruct (is_nan x) eqn:NX; auto. destruct (is_nan y) eqn:NY; auto. left.
  unfold fmax, flt, SFltb. rewrite (SFcompare_swap x y). destruct (SFcompare x y) as [[]|] eqn:E; cbn; auto.
  - apply compare_eq; auto.
  - destruct x as [|[]| |[]], y as [|[]| |[]]; cbn in *; discriminate.
Qed.

Lemma component_sym tol t x y : component_differs tol t x y = component_differs tol t y x.
Proof.
  unfold component_differs. cbv zeta. rewrite (fsub_abs y x).
  rewrite (andb_comm (SFeqb y (inf false))), (andb_comm (SFeqb y (fneg (inf false)))), (andb_comm (is_nan y) (is_nan x)).
  rewrite (orb_comm (is_nan y && negb (is_nan x))), (andb_comm (negb (is_nan y)) (is_nan x)), (andb_comm (is_nan y) (negb (is_nan x))).
  destruct (fmax_comm (fabs x) (fabs y) (fabs_unsigned x) (fabs_unsigned y)) as [->|[N|N]]; [reflexivity| |].
  - assert (is_nan x = true) as -> by (destruct x; cbn in *; congruence). destruct (is_nan y); cbn; [rewrite !orb_true_r; reflexivity|].
    destruct (SFeqb x (inf false) && SFeqb y (inf false) || SFeqb x (fneg (inf false)) && SFeqb y (fneg (inf false)) || false); reflexivity.
  - assert (is_nan y = true) as -> by (destruct y; cbn in *; congruence). destruct (is_nan x); cbn; [rewrite !orb_true_r; reflexivity|].
    destruct (SFeqb x (inf false) && SFeqb y (inf false) || SFeqb x (fneg (inf false)) && SFeqb y (fneg (inf false)) || false); reflexivity.
Qed.

Lemma fsub_self x : finite x = true -> exists s, fsub x x = S754_zero s.
Proof.
  destruct x as [s| | |s m e]; try discriminate; intros _.
  - exists (match s with true => false | false => false end). destruct s; reflexivity.
  - exists false. unfold fsub, SFsub. rewrite Z.min_id, Z.sub_diag. reflexivity.
Qed.
(** A tolerance that is not negative. *)
Definition tolerable (t : double) : Prop := flt t fzero = false.
Lemma fmul_tolerable t m : tolerable t -> unsigned m -> flt (fmul t m) fzero = false.
Proof.
  unfold tolerable, flt, SFltb. destruct t as [st|st| |st mt et], m as [sm|sm| |sm mm em]; cbn [unsigned]; intros T U; subst;
    try reflexivity; try (destruct st; cbn in *; congruence).
  destruct st; [cbn in T; discriminate|]. cbn [fmul SFmul xorb].
  unfold binary_round_aux. destruct (shr_fexp 53 1024 (Z.pos (mt * mm)) (et + em) loc_Exact) as [r1 e1].
  destruct (shr_fexp 53 1024 (round_nearest_even (shr_m r1) (loc_of_shr_record r1)) e1 loc_Exact) as [r2 e2].
  destruct (shr_m r2); try reflexivity. destruct (Z.leb e2 (1024 - 53)); reflexivity.
Qed.
Lemma fmax_unsigned x y : unsigned x -> unsigned y -> unsigned (fmax x y).
Proof. unfold fmax. destruct (flt x y); auto. Qed.
Lemma flt_zero t s : flt t (S754_zero s) = flt t fzero.
Proof. destruct t; reflexivity. Qed.
Lemma component_refl tol t x : tolerable tol -> component_differs tol t x x = false.
Proof.
  intro T. unfold component_differs. cbv zeta.
  destruct x as [s|s| |s m e] eqn:X; try reflexivity; try (destruct s; reflexivity).
  all: rewrite <- X; destruct (fsub_self x) as (z & ->); [subst; reflexivity|];
    match goal with |- (if ?c then _ else _) = _ => destruct c; [reflexivity|] end;
    match goal with |- (if ?c then _ else _) = _ => replace c with false by (subst; reflexivity) end;
    destruct t; cbn [fabs SFabs]; unfold fgt; rewrite flt_zero; auto;
    apply fmul_tolerable; auto; apply fmax_unsigned; [vm_compute; reflexivity|]; apply fmax_unsigned; apply fabs_unsigned.
Qed.

Definition infinite (x : double) : bool := match x with S754_infinity _ => true | _ => false end.
Lemma component_nan tol t x y : is_nan x <> is_nan y -> component_differs tol t x y = true.
Proof.
  destruct x as [[]|[]| |[]], y as [[]|[]| |[]]; cbn [is_nan]; intro H; try congruence; reflexivity.
Qed.
Lemma component_relative_inf tol x y : tolerable tol -> infinite x = true -> is_nan y = false -> component_differs tol kRelative x y = false.
Proof.
  intros T X Y. destruct x as [|sx| |]; try discriminate.
  assert (M : fmul tol (inf false) = inf false \/ fmul tol (inf false) = fnan).
  { destruct tol as [s|s| |s m e]; auto. - destruct s; [discriminate T|]. auto. - destruct s; [discriminate T|]. auto. }
  unfold component_differs. cbv zeta.
  match goal with |- (if ?c then _ else _) = _ => destruct c; [reflexivity|] end.
  rewrite Y. cbn [is_nan andb orb negb].
  replace (fmax (fint 1) (fmax (fabs (S754_infinity sx)) (fabs y))) with (inf false).
  - destruct M as [-> | ->]; unfold fgt.
    + destruct (fabs (fsub (S754_infinity sx) y)) eqn:E; try reflexivity.
      all: pose proof (fabs_unsigned (fsub (S754_infinity sx) y)) as U; rewrite E in U; cbn in U; subst; reflexivity.
    + destruct (fabs (fsub (S754_infinity sx) y)); reflexivity.
  - destruct y as [s|s| |s m e]; try discriminate; vm_compute; reflexivity.
Qed.
Lemma component_absolute_inf tol x y : finite tol = true -> infinite x = true -> is_nan y = false ->
  (component_differs tol kAbsolute x y = true <-> y <> x).
Proof.
  intros T X Y. destruct x as [|sx| |]; try discriminate.
  destruct y as [s|s| |s m e]; try discriminate; destruct sx; try destruct s;
    destruct tol as [st|st| |st mt et]; try discriminate; try destruct st; cbn; split; congruence.
Qed.
