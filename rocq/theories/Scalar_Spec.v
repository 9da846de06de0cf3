(** Specification vocabulary for saturate: the number a double stands for. *)
From Coq Require Import ZArith Bool.
From Coq Require Import Floats.SpecFloat.
Open Scope Z_scope.

(** Extended numbers; finite ones in units of 2^-1074, the smallest positive
    double, of which every finite double is an integer multiple. *)
Inductive ext := NInf | Fin (z : Z) | PInf.

Definition ext_le (a b : ext) : Prop :=
  match a, b with
  | NInf, _ => True
  | _, PInf => True
  | Fin x, Fin y => x <= y
  | _, _ => False
  end.

Definition double := spec_float.
(** IEEE binary64 data: 53 bit significands, exponents up to 1024. *)
Definition is_double (x : double) : Prop := valid_binary 53 1024 x = true.

(** The number denoted; NaN denotes none. *)
Definition value (x : double) : option ext :=
  match x with
  | S754_zero _ => Some (Fin 0)
  | S754_infinity false => Some PInf
  | S754_infinity true => Some NInf
  | S754_nan => None
  | S754_finite s m e => Some (Fin ((if s then -1 else 1) * (Z.pos m * 2 ^ (e + 1074))))
  end.

Definition le_double (a b : double) : Prop :=
  exists u v, value a = Some u /\ value b = Some v /\ ext_le u v.
