(** Specification vocabulary for C35 and C36. *)
From Coq Require Import List Arith Bool Permutation.
From Verif Require Import Base Graph_Model.
Import ListNotations.

(** Branch points of a segment's lanes at one end. *)
Definition at_end (s : segment) (e : bool) (bp : nat) : Prop := exists l, In l (sg_lanes s) /\ bp = (if e then snd l else fst l).
(** The lanes of a segment have different branch points at each end. *)
Definition separate_lanes (s : segment) : Prop := NoDup (map fst (sg_lanes s)) /\ NoDup (map snd (sg_lanes s)).

Definition node_in (g : graph) (n : node) : Prop := In (n_id n, n) (g_nodes g).
Definition edge_in (g : graph) (e : edge) : Prop := In (e_id e, e) (g_edges g).
Definition touches (e : edge) (n : node) : Prop := e_a e = n_id n \/ e_b e = n_id n.

(** Maps keyed by the ids of their values. *)
Definition keyed_graph (g : graph) : Prop :=
  NoDup (map fst (g_edges g)) /\ NoDup (map fst (g_nodes g)) /\
  (forall k e, In (k, e) (g_edges g) -> e_id e = k) /\ (forall k n, In (k, n) (g_nodes g) -> n_id n = k).

(** Incidence: edges join nodes of the graph and nodes list exactly their edges. *)
Definition incidence (g : graph) : Prop :=
  keyed_graph g /\
  (forall e, edge_in g e -> (exists n, node_in g n /\ n_id n = e_a e) /\ (exists n, node_in g n /\ n_id n = e_b e)) /\
  (forall n, node_in g n -> forall id, In id (n_edges n) <-> exists e, edge_in g e /\ e_id e = id /\ touches e n) /\
  (forall n, node_in g n -> NoDup (n_edges n)).

(** Segments in an order in which every end set is new or lies within one end set met
    earlier, and no segment starts and ends at a common branch point it introduces. *)
Definition within_end (ss : list segment) (P : nat -> Prop) : Prop :=
  exists s e, In s ss /\ forall bp, P bp -> at_end s e bp.
Definition clear_of (ss : list segment) (P : nat -> Prop) : Prop :=
  forall s e bp, In s ss -> at_end s e bp -> ~ P bp.
Definition hubs_first (ss : list segment) : Prop :=
  forall p s q, ss = p ++ s :: q ->
    (forall e, within_end p (at_end s e) \/ clear_of p (at_end s e)) /\
    (forall bp, at_end s false bp -> at_end s true bp -> ~ clear_of p (at_end s false)).

(** A walk over nodes: consecutive nodes are the two ends of the edges. *)
Definition joins (e : edge) (x y : nat) : Prop := (e_a e = x /\ e_b e = y) \/ (e_b e = x /\ e_a e = y).
Inductive walk (g : graph) : list nat -> list edge -> Prop :=
| walk_one x : walk g [x] []
| walk_step x y ns e es : edge_in g e -> joins e x y -> walk g (y :: ns) es -> walk g (x :: y :: ns) (e :: es).
(** A path that visits no node twice. *)
Definition simple_path (g : graph) (x : nat) (es : list edge) (z : nat) : Prop :=
  exists ns, walk g ns es /\ NoDup ns /\ hd_error ns = Some x /\ last ns x = z.

(** A branch point where the lanes of both edges end, at a node both touch. *)
Definition shared_bp (e f : edge) (bp : nat) : Prop :=
  exists ee fe, (if ee : bool then e_b e else e_a e) = (if fe : bool then e_b f else e_a f) /\
    at_end (e_seg e) ee bp /\ at_end (e_seg f) fe bp.
(** The two segments are on different sides of the branch point. *)
Definition across (a_side : nat -> list nat) (e f : edge) (bp : nat) : Prop :=
  (In (sg_id (e_seg e)) (a_side bp) /\ ~ In (sg_id (e_seg f)) (a_side bp)) \/
  (~ In (sg_id (e_seg e)) (a_side bp) /\ In (sg_id (e_seg f)) (a_side bp)).
Inductive consecutive {A} (R : A -> A -> Prop) : list A -> Prop :=
| cons_nil : consecutive R []
| cons_one x : consecutive R [x]
| cons_more x y l : R x y -> consecutive R (y :: l) -> consecutive R (x :: y :: l).
