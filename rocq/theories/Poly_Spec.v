(** What a polynomial means, stated without the operations of Poly_Model. *)
From Coq Require Import List QArith Qabs NArith Bool Arith String Ascii Permutation.
From Verif Require Import Base Poly_Model.
Import ListNotations.

(** The number a list of terms, a monomial, a polynomial stands for when variable v has value [rho v]. *)
Fixpoint power (x : Q) (n : nat) : Q := match n with O => 1 | S k => x * power x k end.
Fixpoint tval (rho : N -> Q) (ts : list term) : Q :=
  match ts with [] => 1 | t :: r => power (rho (t_var t)) (t_pow t) * tval rho r end.
Definition mval (rho : N -> Q) (m : mono) : Q := m_coef m * tval rho (m_terms m).
Fixpoint sumval (rho : N -> Q) (ms : list mono) : Q :=
  match ms with [] => 0 | m :: r => mval rho m + sumval rho r end.
Definition value (rho : N -> Q) (p : poly) : Q := sumval rho (p_monos p).
(** rho with variable v given another value. *)
Definition put (rho : N -> Q) (v : N) (x : Q) : N -> Q := fun w => if N.eqb w v then x else rho w.
(** A std::map of values read as an assignment, missing variables from rho. *)
Definition reads (vals : list (N * Q)) (rho : N -> Q) : N -> Q :=
  fun v => match find (fun p => N.eqb v (fst p)) vals with Some (_, x) => x | None => rho v end.

(** Variables that occur. *)
Definition occurs (v : N) (p : poly) : Prop := exists m t, In m (p_monos p) /\ In t (m_terms m) /\ t_var t = v.

(** polynomial.h 23-25: every monomial is a product of distinct variables... *)
Definition distinct (m : mono) : Prop := NoDup (map t_var (m_terms m)).
(** ... raised to positive powers; 0 is no variable's number. *)
Definition proper (m : mono) : Prop := distinct m /\ forall t, In t (m_terms m) -> (0 < t_pow t)%nat /\ (0 < t_var t)%N.
(** The same variables to the same powers. *)
Definition alike (m m' : mono) : Prop := Permutation (m_terms m) (m_terms m').
(** No two monomials are alike. *)
Definition combined (p : poly) : Prop := ForallOrdPairs (fun a b => ~ alike a b) (p_monos p).
(** Only variable v. *)
Definition only (v : N) (m : mono) : Prop := m_terms m = [] \/ exists k, (0 < k)%nat /\ m_terms m = [Term v k].
(** What the class documentation promises about every polynomial, and what is_univariate_ says. *)
Definition good (p : poly) : Prop :=
  Forall proper (p_monos p) /\ combined p /\ (p_univ p = true -> exists v, (0 < v)%N /\ Forall (only v) (p_monos p)).

(** g is the slope of f at x: f departs from its tangent by a quadratic amount at most. *)
Definition slope (f : Q -> Q) (x g : Q) : Prop :=
  exists B, forall h, -(1) <= h <= 1 -> Qabs (f (x + h) - f x - h * g) <= B * (h * h).
(** f_k is the k-th derivative of f. *)
Inductive derives : nat -> (Q -> Q) -> (Q -> Q) -> Prop :=
| derives_0 f g : (forall x, f x == g x) -> derives 0 f g
| derives_S k f g h : (forall x, slope f x (g x)) -> derives k g h -> derives (S k) f h.
(** The polynomial read as a function of its sole variable. *)
Definition curve (p : poly) (x : Q) : Q := value (fun _ => x) p.

(** Coefficients c0 + c1 x + c2 x^2 + ... *)
Fixpoint horner (l : list Q) (x : Q) : Q := match l with [] => 0 | c :: r => c + x * horner r x end.

(** Letters of a variable name, polynomial.h 28-31. *)
Definition name_char (c : ascii) : Prop :=
  let n := N_of_ascii c in (97 <= n <= 122)%N \/ c = "@"%char \/ c = "#"%char \/ c = "_"%char \/ c = "."%char.
Definition good_name (s : string) : Prop :=
  (1 <= String.length s <= 4)%nat /\ Forall name_char (list_ascii_of_string s).

(** Expressions of the operators, and what they mean. *)
Inductive expr :=
| EConst (c : Q) | EVar (c : Q) (v : N)
| EAdd (a b : expr) | ESub (a b : expr) | EMul (a b : expr) | ENeg (a : expr)
| EAddS (a : expr) (c : Q) | ESubS (a : expr) (c : Q) | ESSub (c : Q) (a : expr) | EMulS (a : expr) (c : Q) | EDivS (a : expr) (c : Q)
| EPow (a : expr) (n : nat).
Fixpoint denote (rho : N -> Q) (e : expr) : Q :=
  match e with
  | EConst c => c | EVar c v => c * rho v
  | EAdd a b => denote rho a + denote rho b | ESub a b => denote rho a - denote rho b | EMul a b => denote rho a * denote rho b
  | ENeg a => - denote rho a | EAddS a c => denote rho a + c | ESubS a c => denote rho a - c | ESSub c a => c - denote rho a
  | EMulS a c => denote rho a * c | EDivS a c => denote rho a / c
  | EPow a n => power (denote rho a) n
  end.
(** Variable numbers satisfy V; no division by zero. *)
Fixpoint vars_in (V : N -> Prop) (e : expr) : Prop :=
  match e with
  | EConst _ => True | EVar _ v => V v
  | EAdd a b | ESub a b | EMul a b => vars_in V a /\ vars_in V b
  | ENeg a | EAddS a _ | ESubS a _ | ESSub _ a | EMulS a _ | EPow a _ => vars_in V a
  | EDivS a c => vars_in V a /\ ~ c == 0
  end.
