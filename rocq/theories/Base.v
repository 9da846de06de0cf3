(** Shared vocabulary of the model: outcomes, rational comparisons. *)
From Coq Require Import List QArith Qminmax Qabs Bool Lqa Lia.
Import ListNotations.

Global Arguments Qplus : simpl never.
Global Arguments Qminus : simpl never.
Global Arguments Qmult : simpl never.
Global Arguments Qdiv : simpl never.
Global Arguments Qopp : simpl never.
Global Arguments Qinv : simpl never.
Global Arguments Qabs : simpl never.
Global Arguments Qle_bool : simpl never.

(** Result of a C++ call.  [Ok a]: returns [a].  [Throw]: an exception leaves the
    call (MALIPUT_THROW_UNLESS, MALIPUT_THROW_MESSAGE, MALIPUT_VALIDATE,
    container [.at], ...; include/maliput/common/maliput_throw.h).  [UB]: the C++
    abstract machine gives the call no meaning. *)
Inductive outcome (A : Type) : Type :=
| Ok (a : A)
| Throw
| UB.
Arguments Ok {A} a.
Arguments Throw {A}.
Arguments UB {A}.

Definition obind {A B} (x : outcome A) (f : A -> outcome B) : outcome B :=
  match x with Ok a => f a | Throw => Throw | UB => UB end.

Definition omap {A B} (f : A -> B) (x : outcome A) : outcome B :=
  match x with Ok a => Ok (f a) | Throw => Throw | UB => UB end.

(** MALIPUT_THROW_UNLESS(cond): include/maliput/common/maliput_throw.h 61-68. *)
Definition throw_unless {A} (c : bool) (k : outcome A) : outcome A :=
  if c then k else Throw.

Definition is_ok {A} (x : outcome A) : bool :=
  match x with Ok _ => true | _ => false end.

(** Double comparisons, on exact rationals (finite doubles are rationals). *)
Definition Qleb (x y : Q) : bool := Qle_bool x y.
Definition Qltb (x y : Q) : bool := negb (Qle_bool y x).

(** std::min(a,b) returns a unless b < a; std::max(a,b) returns a unless a < b. *)
Definition cmin (a b : Q) : Q := if Qltb b a then b else a.
Definition cmax (a b : Q) : Q := if Qltb a b then b else a.

Lemma Qleb_spec (x y : Q) : BoolSpec (x <= y)%Q (y < x)%Q (Qleb x y).
Proof.
  unfold Qleb. destruct (Qle_bool x y) eqn:E; constructor.
  - apply Qle_bool_iff; exact E.
  - destruct (Qlt_le_dec y x) as [H|H]; [exact H|].
    apply Qle_bool_iff in H. congruence.
Qed.

Lemma Qltb_spec (x y : Q) : BoolSpec (x < y)%Q (y <= x)%Q (Qltb x y).
Proof.
  unfold Qltb. destruct (Qle_bool y x) eqn:E; simpl; constructor.
  - apply Qle_bool_iff in E. exact E.
  - destruct (Qlt_le_dec x y) as [H|H]; [exact H|].
    apply Qle_bool_iff in H. congruence.
Qed.

Lemma Qleb_true x y : Qleb x y = true <-> (x <= y)%Q.
Proof. destruct (Qleb_spec x y); split; intros; auto; try discriminate; lra. Qed.
Lemma Qltb_true x y : Qltb x y = true <-> (x < y)%Q.
Proof. destruct (Qltb_spec x y); split; intros; auto; try discriminate; lra. Qed.
Lemma Qleb_false x y : Qleb x y = false <-> (y < x)%Q.
Proof. destruct (Qleb_spec x y); split; intros; auto; try discriminate; try lra. Qed.
Lemma Qltb_false x y : Qltb x y = false <-> (y <= x)%Q.
Proof. destruct (Qltb_spec x y); split; intros; auto; try discriminate; try lra. Qed.

(** Case split on every rational comparison in the goal and hypotheses. *)
Ltac qcases :=
  repeat match goal with
  | |- context [Qleb ?x ?y] => destruct (Qleb_spec x y)
  | |- context [Qltb ?x ?y] => destruct (Qltb_spec x y)
  | H : context [Qleb ?x ?y] |- _ => destruct (Qleb_spec x y)
  | H : context [Qltb ?x ?y] |- _ => destruct (Qltb_spec x y)
  end.

Lemma cmin_l a b : (cmin a b <= a)%Q. Proof. unfold cmin; qcases; lra. Qed.
Lemma cmin_r a b : (cmin a b <= b)%Q. Proof. unfold cmin; qcases; lra. Qed.
Lemma cmax_l a b : (a <= cmax a b)%Q. Proof. unfold cmax; qcases; lra. Qed.
Lemma cmax_r a b : (b <= cmax a b)%Q. Proof. unfold cmax; qcases; lra. Qed.

Lemma cmax_cases a b : (cmax a b == a /\ b <= a)%Q \/ (cmax a b == b /\ a <= b)%Q.
Proof. unfold cmax; qcases; [right|left]; split; try reflexivity; lra. Qed.
Lemma cmin_cases a b : (cmin a b == a /\ a <= b)%Q \/ (cmin a b == b /\ b <= a)%Q.
Proof. unfold cmin; qcases; [right|left]; split; try reflexivity; lra. Qed.
