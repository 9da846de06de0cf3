(** Polynomials with integer coefficients, lowest degree first: evaluation, ring operations,
    derivative, shift and scaling of the variable. *)
From Coq Require Import Reals ZArith List Lra Lia Bool Psatz.
Import ListNotations.
Local Open Scope R_scope.

Fixpoint pe (p : list Z) (x : R) : R := match p with [] => 0 | c :: p => IZR c + x * pe p x end.

Fixpoint padd (a b : list Z) : list Z :=
  match a, b with
  | [], _ => b
  | _, [] => a
  | x :: a, y :: b => (x + y)%Z :: padd a b
  end.
Definition pscale (c : Z) (p : list Z) : list Z := map (Z.mul c) p.
Fixpoint pmul (a b : list Z) : list Z :=
  match a with [] => [] | x :: a => padd (pscale x b) (0%Z :: pmul a b) end.
Fixpoint pder_from (i : Z) (p : list Z) : list Z := match p with [] => [] | c :: p => (i * c)%Z :: pder_from (i + 1) p end.
Definition pder (p : list Z) : list Z := pder_from 1 (tl p).

Lemma pe_add : forall a b x, pe (padd a b) x = pe a x + pe b x.
Proof.
  induction a as [|c a IH]; destruct b as [|d b]; intro x; cbn [pe padd]; try lra.
  rewrite IH, plus_IZR. ring.
Qed.

Lemma pe_scale : forall c p x, pe (pscale c p) x = IZR c * pe p x.
Proof.
  induction p as [|d p IH]; intro x; cbn [pe pscale map]; [ring|].
  fold (pscale c p). rewrite IH, mult_IZR. ring.
Qed.

Lemma pe_mul : forall a b x, pe (pmul a b) x = pe a x * pe b x.
Proof.
  induction a as [|c a IH]; intros b x; cbn [pmul pe]; [ring|].
  rewrite pe_add, pe_scale. cbn [pe]. rewrite IH. ring.
Qed.

Lemma pe_cons0 : forall p x, pe (0%Z :: p) x = x * pe p x.
Proof. intros. cbn [pe]. lra. Qed.

Lemma pder_from_shift : forall p i x, pe (pder_from (i + 1) p) x = pe (pder_from i p) x + pe p x.
Proof.
  induction p as [|c p IH]; intros i x; cbn [pder_from pe]; [ring|].
  rewrite IH, !mult_IZR, plus_IZR. ring.
Qed.

Lemma pe_derivative : forall p x, derivable_pt_lim (pe p) x (pe (pder p) x).
Proof.
  induction p as [|c p IH]; intro x.
  - apply derivable_pt_lim_const.
  - unfold pder. cbn [tl].
    replace (pe (pder_from 1 p) x) with (0 + (1 * pe p x + x * pe (pder p) x)).
    + apply (derivable_pt_lim_plus (fct_cte (IZR c)) (fun y => y * pe p y)).
      * apply derivable_pt_lim_const.
      * apply (derivable_pt_lim_mult id (pe p)); [apply derivable_pt_lim_id|apply IH].
    + unfold pder. destruct p as [|d p]; [cbn; ring|].
      cbn [tl pder_from pe]. rewrite pder_from_shift, !mult_IZR. ring.
Qed.

(** Shifting the variable. *)
Fixpoint pshift (c : Z) (p : list Z) : list Z :=
  match p with [] => [] | k :: p => let r := pshift c p in padd [k] (padd (0%Z :: r) (pscale c r)) end.

Lemma pe_shift : forall c p y, pe (pshift c p) y = pe p (IZR c + y).
Proof.
  induction p as [|k p IH]; intro y; [reflexivity|].
  cbn [pshift]. rewrite !pe_add, pe_scale, pe_cons0, IH. cbn [pe]. ring.
Qed.

(** Replacing the variable by a/b of it. *)
Fixpoint phom (a b : Z) (n : nat) (p : list Z) : list Z :=
  match p with [] => [] | c :: p => (c * b ^ Z.of_nat n)%Z :: pscale a (phom a b (pred n) p) end.

Lemma pe_hom : forall a b p n y, (0 < b)%Z -> (length p <= S n)%nat ->
  pe (phom a b n p) y = IZR b ^ n * pe p (IZR a * y / IZR b).
Proof.
  intros a b p. induction p as [|c p IH]; intros n y hb hl; [cbn [phom pe]; ring|].
  cbn [phom pe]. rewrite pe_scale, mult_IZR, <- pow_IZR. cbn [length] in hl.
  assert (IZR b <> 0) by (apply not_0_IZR; lia).
  destruct n as [|n].
  - assert (p = []) by (destruct p; [reflexivity|cbn in hl; lia]). subst p. cbn. ring.
  - cbn [pred]. rewrite (IH n y hb) by lia. cbn [pow]. field. assumption.
Qed.

(** Polynomials with coefficients that are not negative. *)
Definition pnonneg (p : list Z) : bool := forallb (Z.leb 0) p.

Lemma pe_nonneg : forall p x, pnonneg p = true -> 0 <= x -> 0 <= pe p x.
Proof.
  induction p as [|c p IH]; intros x h hx; cbn [pe]; [lra|].
  cbn [pnonneg forallb] in h. apply andb_true_iff in h as [hc h].
  apply Z.leb_le, IZR_le in hc. specialize (IH x h hx). nra.
Qed.

Lemma pe_monotone : forall p x y, pnonneg p = true -> 0 <= x -> x <= y -> pe p x <= pe p y.
Proof.
  induction p as [|c p IH]; intros x y h hx hy; cbn [pe]; [lra|].
  cbn [pnonneg forallb] in h. apply andb_true_iff in h as [hc h].
  specialize (IH x y h hx hy). pose proof (pe_nonneg p x h hx). nra.
Qed.

Lemma pe_positive : forall c p x, (0 < c)%Z -> pnonneg p = true -> 0 <= x -> IZR c <= pe (c :: p) x.
Proof. intros c p x hc h hx. cbn [pe]. pose proof (pe_nonneg p x h hx). nra. Qed.

Fixpoint pz (p : list Z) (x : Z) : Z := match p with [] => 0%Z | c :: p => (c + x * pz p x)%Z end.
Lemma pe_z : forall p x, pe p (IZR x) = IZR (pz p x).
Proof. induction p as [|c p IH]; intro x; [reflexivity|]. cbn [pe pz]. rewrite IH, plus_IZR, mult_IZR. reflexivity. Qed.
