(** Specification vocabulary for C37, C38, C39. *)
From Coq Require Import List Arith Bool QArith.
From Verif Require Import Base Regions_Model Graph_Spec.
Import ListNotations.

Section Network.
Variable ongoing : nat -> bool -> list (nat * bool).
Variable len : nat -> Q.

(** [b] is an ongoing branch of [a]: end [ea] of [a] meets end [eb] of [b]. *)
Definition meets (a : nat) (ea : bool) (b : nat) (eb : bool) : Prop := In (b, eb) (ongoing a ea).
Definition leads (a b : nat) : Prop := exists ea eb, meets a ea b eb.

Fixpoint total (l : list nat) : Q := match l with [] => 0%Q | x :: l' => (len x + total l')%Q end.
(** Lanes strictly between the first and the last. *)
Definition interior (p : list nat) : list nat := removelast (tl p).

(** Paths over distinct lanes from [start] to [goal]. *)
Definition lane_path (start goal : nat) (p : list nat) : Prop :=
  hd_error p = Some start /\ last p start = goal /\ NoDup p /\ consecutive leads p.

(** The network is finite and lengths are not negative. *)
Definition finite_network (lanes : list nat) : Prop :=
  NoDup lanes /\ (forall l, 0 <= len l)%Q /\ forall a b, In a lanes -> leads a b -> In b lanes.

(** Any two lanes are joined at most once. *)
Definition joined_once : Prop :=
  (forall a ea eb ea' eb' b, meets a ea b eb -> meets a ea' b eb' -> ea = ea' /\ eb = eb') /\
  (forall a e, NoDup (map fst (ongoing a e))).
(** If an end meets another, the other meets it. *)
Definition two_way : Prop := forall a ea b eb, meets a ea b eb -> meets b eb a ea.
(** Lanes are joined finish to start or start to finish. *)
Definition aligned : Prop := forall a ea b eb, meets a ea b eb -> eb = negb ea.

(** Some lane is entered and left through the same end. *)
Definition u_turn (p : list nat) : Prop :=
  exists u a b c v ea e ec, p = u ++ a :: b :: c :: v /\ meets a ea b e /\ meets b e c ec.

(** ** Routes *)
Definition s_of_end (l : nat) (e : bool) : Q := if e then len l else 0%Q.
(** The end of one range and the start of the next are lane ends that meet. *)
Definition contiguous (r q : lsrange) : Prop :=
  exists e f, s1 (s_range r) = s_of_end (lane_id r) e /\ s0 (s_range q) = s_of_end (lane_id q) f /\ meets (lane_id r) e (lane_id q) f.
(** From one end of the lane to the other. *)
Definition traversed (r : lsrange) : Prop :=
  exists e, s0 (s_range r) = s_of_end (lane_id r) e /\ s1 (s_range r) = s_of_end (lane_id r) (negb e).
End Network.
