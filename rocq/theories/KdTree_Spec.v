(** Specification vocabulary for C06-C09. *)
From Coq Require Import List QArith Permutation.
From Verif Require Import KdTree_Model.
Import ListNotations.
Open Scope Q_scope.

(** Order of the extended line. *)
Definition ele (a b : ext) : Prop :=
  match a, b with
  | NInf, _ => True
  | _, PInf => True
  | Fin x, Fin y => x <= y
  | _, _ => False
  end.

(** Closed box between two corners, as a set of extended points. *)
Definition between (mn mx p : vec3) : Prop :=
  (ele (vx mn) (vx p) /\ ele (vx p) (vx mx)) /\
  (ele (vy mn) (vy p) /\ ele (vy p) (vy mx)) /\
  (ele (vz mn) (vz p) /\ ele (vz p) (vz mx)).

Definition in_box (b : box) (p : vec3) : Prop := between (bmin b) (bmax b) p.

(** Shift of a finite coordinate; infinities stay. *)
Definition shift (a : ext) (t : Q) : ext := match a with Fin x => Fin (x + t) | _ => a end.
Definition vshift (v : vec3) (t : Q) : vec3 := V3 (shift (vx v) t) (shift (vy v) t) (shift (vz v) t).
(** The box grown by its tolerance. *)
Definition in_inflated (b : box) (p : vec3) : Prop :=
  between (vshift (bmin b) (- btol b)) (vshift (bmax b) (btol b)) p.

(** What the constructor guarantees. *)
Definition box_wf (b : box) : Prop :=
  0 <= btol b /\ ele (vx (bmin b)) (vx (bmax b)) /\ ele (vy (bmin b)) (vy (bmax b)) /\ ele (vz (bmin b)) (vz (bmax b)).

Section Trees.
Variable P : Type.
Variable coord : P -> nat -> Q.
Variable dim : nat.

(** [nth_element] as the C++ standard specifies it, for the comparison on
    coordinate [i]: a permutation with the k-th element in sorted position. *)
Definition nth_element_ok (nth_element : nat -> nat -> list P -> list P) : Prop :=
  forall i k l, (k < length l)%nat ->
    Permutation l (nth_element i k l) /\
    forall a p b, nth_element i k l = a ++ p :: b -> length a = k ->
      (forall x, In x a -> coord x i <= coord p i) /\ (forall x, In x b -> coord p i <= coord x i).

Fixpoint elements (t : tree P) : list P :=
  match t with
  | Null => []
  | Node p _ l r => p :: elements l ++ elements r
  end.

(** Splitting coordinates cycle with depth and separate the subtrees. *)
Fixpoint kd_ordered (i : nat) (t : tree P) : Prop :=
  match t with
  | Null => True
  | Node p j l r =>
      j = i /\ (forall x, In x (elements l) -> coord x i <= coord p i) /\
      (forall x, In x (elements r) -> coord p i <= coord x i) /\
      kd_ordered (Nat.modulo (i + 1) dim) l /\ kd_ordered (Nat.modulo (i + 1) dim) r
  end.

Fixpoint relements (t : rtree P) : list P :=
  match t with
  | RNull => []
  | RNode p _ _ l r => p :: relements l ++ relements r
  end.

(** The underlying tree of a tree with regions. *)
Fixpoint skeleton (t : rtree P) : tree P :=
  match t with
  | RNull => Null
  | RNode p i _ l r => Node p i (skeleton l) (skeleton r)
  end.

(** Each node's region contains every point of its subtree. *)
Definition point_in (coordP : P -> nat -> Q) (b : box) (p : P) : Prop :=
  in_box b (V3 (Fin (coordP p 0%nat)) (Fin (coordP p 1%nat)) (Fin (coordP p 2%nat))).

Fixpoint regions_cover (t : rtree P) : Prop :=
  match t with
  | RNull => True
  | RNode _ _ b l r => (forall x, In x (relements t) -> point_in coord b x) /\ regions_cover l /\ regions_cover r
  end.

(** Squared Euclidean distance, by recursion on the dimension. *)
Fixpoint sqdist (n : nat) (a b : P) : Q :=
  match n with
  | O => 0
  | S m => sqdist m a b + (coord a m - coord b m) * (coord a m - coord b m)
  end.

Inductive subseq : list P -> list P -> Prop :=
| subseq_nil : forall l, subseq [] l
| subseq_skip : forall x a b, subseq a b -> subseq a (x :: b)
| subseq_take : forall x a b, subseq a b -> subseq (x :: a) (x :: b).
End Trees.
