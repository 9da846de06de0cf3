(** IEEE 754 double precision, from the standard library's executable specification
    (Coq.Floats.SpecFloat), rounding to nearest even; no contraction of products and sums. *)
From Coq Require Import ZArith Floats.SpecFloat.

Definition double : Type := spec_float.
Definition fadd : double -> double -> double := SFadd 53 1024.
Definition fsub : double -> double -> double := SFsub 53 1024.
Definition fmul : double -> double -> double := SFmul 53 1024.
Definition fdiv : double -> double -> double := SFdiv 53 1024.
Definition fsqrt : double -> double := SFsqrt 53 1024.
Definition fneg : double -> double := SFopp.
Definition fabs : double -> double := SFabs.
(** Comparisons: false on NaN. *)
Definition flt : double -> double -> bool := SFltb.
Definition fle : double -> double -> bool := SFleb.
Definition fgt (a b : double) : bool := flt b a.
(** The double nearest to m * 2^e. *)
Definition fof (m e : Z) : double := binary_normalize 53 1024 m e false.
Definition fint (m : Z) : double := fof m 0.
Definition fnan : double := S754_nan.
Definition fzero : double := S754_zero false.
(** Neither NaN nor infinite. *)
Definition finite (x : double) : bool := match x with S754_zero _ | S754_finite _ _ _ => true | _ => false end.

Lemma fadd_nan_l : forall x, fadd fnan x = fnan. Proof. intros []; reflexivity. Qed.
Lemma fadd_nan_r : forall x, fadd x fnan = fnan. Proof. intros []; reflexivity. Qed.
Lemma fmul_nan_l : forall x, fmul fnan x = fnan. Proof. intros []; reflexivity. Qed.
Lemma fmul_nan_r : forall x, fmul x fnan = fnan. Proof. intros []; reflexivity. Qed.
Lemma fsqrt_nan : fsqrt fnan = fnan. Proof. reflexivity. Qed.
Lemma flt_nan_l : forall x, flt fnan x = false. Proof. intros []; reflexivity. Qed.
Lemma flt_nan_r : forall x, flt x fnan = false. Proof. intros []; reflexivity. Qed.
