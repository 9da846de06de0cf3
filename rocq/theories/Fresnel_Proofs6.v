(** The formula for larger arguments has nearly the right derivative. *)
From Coq Require Import Reals ZArith QArith Qreals List Lra Lia Psatz Bool.
Import ListNotations.
From Verif Require Import Fresnel_Model Fresnel_Spec Fresnel_Proofs Fresnel_Proofs2 Fresnel_Proofs3 Fresnel_Proofs4 Fresnel_Proofs5.
Local Open Scope R_scope.

Definition zz (x : R) : R := PI * (x * x).
Definition uu (x : R) : R := 1 / (zz x * zz x).
Definition ratF (u : R) : R := pe ZFn u / pe ZFd u.
Definition ratG (u : R) : R := pe ZGn u / pe ZGd u.
Definition slopeF (u : R) : R := pe (wronskian ZFn ZFd) u / (pe ZFd u * pe ZFd u).
Definition slopeG (u : R) : R := pe (wronskian ZGn ZGd) u / (pe ZGd u * pe ZGd u).
Definition ff (x : R) : R := 1 - uu x * ratF (uu x).
Definition gg (x : R) : R := 1 / zz x * ratG (uu x).
Definition med_C (x : R) : R := 1 / 2 + (ff x * sin (PI / 2 * (x * x)) - gg x * cos (PI / 2 * (x * x))) / (PI * x).
Definition med_S (x : R) : R := 1 / 2 - (ff x * cos (PI / 2 * (x * x)) + gg x * sin (PI / 2 * (x * x))) / (PI * x).

Lemma zz_pos : forall x, 0 < x -> 0 < zz x.
Proof. intros x hx. unfold zz. pose proof PI_RGT_0. apply Rmult_lt_0_compat; nra. Qed.
Lemma uu_pos : forall x, 0 < x -> 0 < uu x.
Proof. intros x hx. unfold uu. pose proof (zz_pos x hx). apply Rdiv_lt_0_compat; nra. Qed.

Lemma impl_medium_value : forall x, 0 < x -> impl_medium_x x = Some (med_S x, med_C x).
Proof.
  intros x hx. unfold impl_medium_x. cbv zeta. fold (zz x). fold (uu x).
  rewrite table_Fn, table_Fd, table_Gn, table_Gd. unfold med_S, med_C, ff, gg, ratF, ratG.
  pose proof (uu_pos x hx) as hu. pose proof (zz_pos x hx) as hz. pose proof PI_RGT_0.
  pose proof (pe_pos ZFd (uu x) eq_refl (Rlt_le _ _ hu)). pose proof (pe_pos ZGd (uu x) eq_refl (Rlt_le _ _ hu)).
  replace (PI * (1 / 2) * (x * x)) with (PI / 2 * (x * x)) by field.
  assert (0 < IZR (10 ^ 40)) by (apply IZR_lt; reflexivity). assert (0 < IZR (10 ^ 42)) by (apply IZR_lt; reflexivity).
  set (d := IZR (10 ^ 40)) in *. set (d' := IZR (10 ^ 42)) in *. f_equal. f_equal; field; repeat split; lra.
Qed.

(** Derivatives of the parts. *)
Lemma square_derivative : forall c x, derivable_pt_lim (fun x => c * (x * x)) x (c * (2 * x)).
Proof.
  intros c x. apply (derivable_pt_lim_scal (fun x => x * x)). replace (2 * x) with (1 * x + x * 1) by ring.
  apply (derivable_pt_lim_mult id id); apply derivable_pt_lim_id.
Qed.

Lemma zz_derivative : forall x, derivable_pt_lim zz x (PI * (2 * x)).
Proof. intro x. apply square_derivative. Qed.

Lemma inverse_derivative : forall (f : R -> R) x l, f x <> 0 -> derivable_pt_lim f x l -> derivable_pt_lim (fun x => 1 / f x) x (- l / (f x * f x)).
Proof.
  intros f x l h hd.
  replace (- l / (f x * f x)) with ((0 * f x - l * 1) / Rsqr (f x)) by (unfold Rsqr; field; assumption).
  apply (derivable_pt_lim_div (fct_cte 1) f); [apply derivable_pt_lim_const|assumption|assumption].
Qed.

Lemma uu_derivative : forall x, 0 < x -> derivable_pt_lim uu x (- 4 * uu x / x).
Proof.
  intros x hx. pose proof (zz_pos x hx) as hz. pose proof PI_RGT_0.
  replace (- 4 * uu x / x) with (- (PI * (2 * x) * zz x + zz x * (PI * (2 * x))) / ((zz x * zz x) * (zz x * zz x))).
  - apply (inverse_derivative (fun x => zz x * zz x)); [nra|].
    apply (derivable_pt_lim_mult zz zz); apply zz_derivative.
  - unfold uu, zz. field. lra.
Qed.

Lemma ratF_derivative : forall x, 0 < x -> derivable_pt_lim (fun x => ratF (uu x)) x (slopeF (uu x) * (- 4 * uu x / x)).
Proof.
  intros x hx. pose proof (uu_pos x hx). apply (derivable_pt_lim_comp uu ratF); [apply uu_derivative; assumption|].
  apply ratio_derivative. pose proof (pe_pos ZFd (uu x) eq_refl). lra.
Qed.
Lemma ratG_derivative : forall x, 0 < x -> derivable_pt_lim (fun x => ratG (uu x)) x (slopeG (uu x) * (- 4 * uu x / x)).
Proof.
  intros x hx. pose proof (uu_pos x hx). apply (derivable_pt_lim_comp uu ratG); [apply uu_derivative; assumption|].
  apply ratio_derivative. pose proof (pe_pos ZGd (uu x) eq_refl). lra.
Qed.

Lemma ff_derivative : forall x, 0 < x -> derivable_pt_lim ff x (4 * uu x / x * (ratF (uu x) + uu x * slopeF (uu x))).
Proof.
  intros x hx.
  replace (4 * uu x / x * (ratF (uu x) + uu x * slopeF (uu x)))
    with (0 - ((- 4 * uu x / x) * ratF (uu x) + uu x * (slopeF (uu x) * (- 4 * uu x / x)))) by (field; lra).
  apply (derivable_pt_lim_minus (fct_cte 1) (fun x => uu x * ratF (uu x))); [apply derivable_pt_lim_const|].
  apply (derivable_pt_lim_mult uu (fun x => ratF (uu x))); [apply uu_derivative|apply ratF_derivative]; assumption.
Qed.

Lemma gg_derivative : forall x, 0 < x ->
  derivable_pt_lim gg x (- (2 / (x * zz x)) * (ratG (uu x) + 2 * uu x * slopeG (uu x))).
Proof.
  intros x hx. pose proof (zz_pos x hx) as hz. pose proof PI_RGT_0.
  replace (- (2 / (x * zz x)) * (ratG (uu x) + 2 * uu x * slopeG (uu x)))
    with ((- (PI * (2 * x)) / (zz x * zz x)) * ratG (uu x) + 1 / zz x * (slopeG (uu x) * (- 4 * uu x / x))).
  - apply (derivable_pt_lim_mult (fun x => 1 / zz x) (fun x => ratG (uu x))); [|apply ratG_derivative; assumption].
    apply inverse_derivative; [lra|apply zz_derivative].
  - set (u := uu x). unfold zz. field. lra.
Qed.

Lemma cos_sq_derivative : forall x, derivable_pt_lim (fun x => cos (PI / 2 * (x * x))) x (- sin (PI / 2 * (x * x)) * (PI / 2 * (2 * x))).
Proof. intro x. apply (derivable_pt_lim_comp (fun x => PI / 2 * (x * x)) cos); [apply square_derivative|apply derivable_pt_lim_cos]. Qed.
Lemma sin_sq_derivative : forall x, derivable_pt_lim (fun x => sin (PI / 2 * (x * x))) x (cos (PI / 2 * (x * x)) * (PI / 2 * (2 * x))).
Proof. intro x. apply (derivable_pt_lim_comp (fun x => PI / 2 * (x * x)) sin); [apply square_derivative|apply derivable_pt_lim_sin]. Qed.

(** What the derivative has too much. *)
Definition alpha (u : R) : R := 3 * ratG u + 4 * u * slopeG u - ratF u.
Definition beta (u : R) : R := ratG u - 1 + 5 * u * ratF u + 4 * (u * u) * slopeF u.

Lemma med_C_derivative : forall x, 0 < x ->
  derivable_pt_lim med_C x (cos (PI / 2 * (x * x)) * (1 + uu x * alpha (uu x)) + sin (PI / 2 * (x * x)) * (1 / zz x * beta (uu x))).
Proof.
  intros x hx. pose proof (zz_pos x hx) as hz. pose proof PI_RGT_0.
  set (f' := 4 * uu x / x * (ratF (uu x) + uu x * slopeF (uu x))).
  set (g' := - (2 / (x * zz x)) * (ratG (uu x) + 2 * uu x * slopeG (uu x))).
  set (s := sin (PI / 2 * (x * x))). set (c := cos (PI / 2 * (x * x))).
  replace (c * (1 + uu x * alpha (uu x)) + s * (1 / zz x * beta (uu x)))
    with (0 + ((f' * s + ff x * (c * (PI / 2 * (2 * x))) - (g' * c + gg x * (- s * (PI / 2 * (2 * x))))) * (PI * x)
               - (PI * 1) * (ff x * s - gg x * c)) / Rsqr (PI * x)).
  - apply (derivable_pt_lim_plus (fct_cte (1 / 2))
      (fun x => (ff x * sin (PI / 2 * (x * x)) - gg x * cos (PI / 2 * (x * x))) / (PI * x))); [apply derivable_pt_lim_const|].
    apply (derivable_pt_lim_div (fun x => ff x * sin (PI / 2 * (x * x)) - gg x * cos (PI / 2 * (x * x))) (fun x => PI * x)).
    + apply (derivable_pt_lim_minus (fun x => ff x * sin (PI / 2 * (x * x))) (fun x => gg x * cos (PI / 2 * (x * x)))).
      * apply (derivable_pt_lim_mult ff (fun x => sin (PI / 2 * (x * x)))); [apply ff_derivative; assumption|apply sin_sq_derivative].
      * apply (derivable_pt_lim_mult gg (fun x => cos (PI / 2 * (x * x)))); [apply gg_derivative; assumption|apply cos_sq_derivative].
    + apply (derivable_pt_lim_scal id). apply derivable_pt_lim_id.
    + nra.
  - unfold f', g', ff, gg, alpha, beta, Rsqr.
    set (r := ratF (uu x)). set (r' := slopeF (uu x)). set (g := ratG (uu x)). set (h := slopeG (uu x)).
    unfold uu, zz. field. lra.
Qed.

Lemma med_S_derivative : forall x, 0 < x ->
  derivable_pt_lim med_S x (sin (PI / 2 * (x * x)) * (1 + uu x * alpha (uu x)) - cos (PI / 2 * (x * x)) * (1 / zz x * beta (uu x))).
Proof.
  intros x hx. pose proof (zz_pos x hx) as hz. pose proof PI_RGT_0.
  set (f' := 4 * uu x / x * (ratF (uu x) + uu x * slopeF (uu x))).
  set (g' := - (2 / (x * zz x)) * (ratG (uu x) + 2 * uu x * slopeG (uu x))).
  set (s := sin (PI / 2 * (x * x))). set (c := cos (PI / 2 * (x * x))).
  replace (s * (1 + uu x * alpha (uu x)) - c * (1 / zz x * beta (uu x)))
    with (0 - ((f' * c + ff x * (- s * (PI / 2 * (2 * x))) + (g' * s + gg x * (c * (PI / 2 * (2 * x))))) * (PI * x)
               - (PI * 1) * (ff x * c + gg x * s)) / Rsqr (PI * x)).
  - apply (derivable_pt_lim_minus (fct_cte (1 / 2))
      (fun x => (ff x * cos (PI / 2 * (x * x)) + gg x * sin (PI / 2 * (x * x))) / (PI * x))); [apply derivable_pt_lim_const|].
    apply (derivable_pt_lim_div (fun x => ff x * cos (PI / 2 * (x * x)) + gg x * sin (PI / 2 * (x * x))) (fun x => PI * x)).
    + apply (derivable_pt_lim_plus (fun x => ff x * cos (PI / 2 * (x * x))) (fun x => gg x * sin (PI / 2 * (x * x)))).
      * apply (derivable_pt_lim_mult ff (fun x => cos (PI / 2 * (x * x)))); [apply ff_derivative; assumption|apply cos_sq_derivative].
      * apply (derivable_pt_lim_mult gg (fun x => sin (PI / 2 * (x * x)))); [apply gg_derivative; assumption|apply sin_sq_derivative].
    + apply (derivable_pt_lim_scal id). apply derivable_pt_lim_id.
    + nra.
  - unfold f', g', ff, gg, alpha, beta, Rsqr.
    set (r := ratF (uu x)). set (r' := slopeF (uu x)). set (g := ratG (uu x)). set (h := slopeG (uu x)).
    unfold uu, zz. field. lra.
Qed.

(** Both excesses are small; the variable is u = v / 64. *)
Definition num_A : list Z :=
  padd (pmul (padd (pscale 3 (pmul ZGn ZGd)) (pscale 4 (0%Z :: wronskian ZGn ZGd))) ZFd) (pscale (-1) (pmul ZFn (pmul ZGd ZGd))).
Definition den_A : list Z := pmul (pmul ZGd ZGd) ZFd.
Definition num_B : list Z :=
  padd (pmul (padd ZGn (pscale (-1) ZGd)) (pmul ZFd ZFd))
       (pmul (padd (pscale 5 (0%Z :: pmul ZFn ZFd)) (pscale 4 (0%Z :: 0%Z :: wronskian ZFn ZFd))) ZGd).
Definition den_B : list Z := pmul (pmul ZFd ZFd) ZGd.
Definition NA : list Z := Eval vm_compute in phom 1 64 34 num_A.
Definition DA : list Z := Eval vm_compute in phom 1 64 34 den_A.
Definition NB : list Z := Eval vm_compute in phom 1 64 34 num_B.
Definition DB : list Z := Eval vm_compute in phom 1 64 34 den_B.
Lemma NA_eq : phom 1 64 34 num_A = NA.
Proof. vm_compute. reflexivity. Qed.
Lemma DA_eq : phom 1 64 34 den_A = DA.
Proof. vm_compute. reflexivity. Qed.
Lemma NB_eq : phom 1 64 34 num_B = NB.
Proof. vm_compute. reflexivity. Qed.
Lemma DB_eq : phom 1 64 34 den_B = DB.
Proof. vm_compute. reflexivity. Qed.

Lemma check_A1 : halves 34 (padd DA (pscale (4 * 10 ^ 11) NA)) = true.
Proof. vm_compute. reflexivity. Qed.
Lemma check_A2 : halves 34 (padd DA (pscale (- (4 * 10 ^ 11)) NA)) = true.
Proof. vm_compute. reflexivity. Qed.
Lemma check_B1 : halves 34 (padd DB (pscale (5 * 10 ^ 13) NB)) = true.
Proof. vm_compute. reflexivity. Qed.
Lemma check_B2 : halves 34 (padd DB (pscale (- (5 * 10 ^ 13)) NB)) = true.
Proof. vm_compute. reflexivity. Qed.
Lemma size_A : (length num_A <= 35)%nat /\ (length den_A <= 35)%nat.
Proof. split; apply Nat.leb_le; vm_compute; reflexivity. Qed.
Lemma size_B : (length num_B <= 35)%nat /\ (length den_B <= 35)%nat.
Proof. split; apply Nat.leb_le; vm_compute; reflexivity. Qed.

Lemma abs_quotient : forall n d x m, 0 < d -> 0 < m -> n = d * x -> m * Rabs n <= d -> Rabs x <= / m.
Proof.
  intros n d x m hd hm -> h. rewrite Rabs_mult, (Rabs_pos_eq d) in h by lra.
  apply Rmult_le_reg_l with (d * m); [nra|]. replace (d * m * / m) with d by (field; lra). lra.
Qed.

Lemma halves_bound : forall m num den u, (0 <= m)%Z -> (length num <= 35)%nat -> (length den <= 35)%nat -> 0 <= u <= / 64 ->
  halves 34 (padd (phom 1 64 34 den) (pscale m (phom 1 64 34 num))) = true ->
  halves 34 (padd (phom 1 64 34 den) (pscale (- m) (phom 1 64 34 num))) = true -> IZR m * Rabs (pe num u) <= pe den u.
Proof.
  intros m num den u hm h1 h2 hu k1 k2. assert (hv : 0 <= 64 * u <= 1) by lra.
  apply (halves_sound _ _ (64 * u)) in k1; [|assumption]. apply (halves_sound _ _ (64 * u)) in k2; [|assumption].
  rewrite pe_add, pe_scale, !pe_hom in k1 by (lia || assumption). rewrite pe_add, pe_scale, !pe_hom, opp_IZR in k2 by (lia || assumption).
  replace (1 * (64 * u) / 64) with u in * by field. assert (hp : 0 < 64 ^ 34) by (apply pow_lt; lra). set (c := 64 ^ 34) in *.
  assert (0 <= pe den u + IZR m * pe num u) by (apply Rmult_le_reg_l with c; lra).
  assert (0 <= pe den u - IZR m * pe num u) by (apply Rmult_le_reg_l with c; lra).
  apply IZR_le in hm. rewrite <- (Rabs_pos_eq (IZR m)), <- Rabs_mult by assumption. apply Rabs_le. lra.
Qed.

Lemma alpha_small : forall u, 0 <= u <= / 64 -> Rabs (alpha u) <= / IZR (4 * 10 ^ 11).
Proof.
  intros u hu.
  assert (h : IZR (4 * 10 ^ 11) * Rabs (pe num_A u) <= pe den_A u).
  { apply halves_bound; [lia|apply size_A|apply size_A|assumption|rewrite NA_eq, DA_eq; apply check_A1|rewrite NA_eq, DA_eq; apply check_A2]. }
  pose proof (pe_pos ZFd u eq_refl (proj1 hu)) as hf. pose proof (pe_pos ZGd u eq_refl (proj1 hu)) as hg.
  refine (abs_quotient (pe num_A u) (pe den_A u) (alpha u) _ _ _ _ h).
  - unfold den_A. rewrite !pe_mul. apply Rmult_lt_0_compat; nra.
  - apply IZR_lt. reflexivity.
  - unfold num_A, den_A, alpha, ratG, ratF, slopeG. rewrite !pe_add, !pe_mul, !pe_add, !pe_scale, pe_cons0, !pe_mul. field. lra.
Qed.

Lemma beta_small : forall u, 0 <= u <= / 64 -> Rabs (beta u) <= / IZR (5 * 10 ^ 13).
Proof.
  intros u hu.
  assert (h : IZR (5 * 10 ^ 13) * Rabs (pe num_B u) <= pe den_B u).
  { apply halves_bound; [lia|apply size_B|apply size_B|assumption|rewrite NB_eq, DB_eq; apply check_B1|rewrite NB_eq, DB_eq; apply check_B2]. }
  pose proof (pe_pos ZFd u eq_refl (proj1 hu)) as hf. pose proof (pe_pos ZGd u eq_refl (proj1 hu)) as hg.
  refine (abs_quotient (pe num_B u) (pe den_B u) (beta u) _ _ _ _ h).
  - unfold den_B. rewrite !pe_mul. apply Rmult_lt_0_compat; nra.
  - apply IZR_lt. reflexivity.
  - unfold num_B, den_B, beta, ratG, ratF, slopeF. rewrite !pe_add, !pe_mul, !pe_add, !pe_scale, !pe_cons0, !pe_mul. field. lra.
Qed.
