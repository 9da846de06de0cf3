(** Models of src/maliput/base/distance_router.cc and
    src/maliput/routing/routing_constraints.cc.
    Doubles are exact rationals; lanes and segments are natural numbers standing for
    pointer and id; the index a phase carries is its place in the list. *)
From Coq Require Import List Arith Bool QArith.
From Verif Require Import Base Regions_Model Scalar_Model Graph_Model Route_Model.
Import ListNotations.
Open Scope Q_scope.

(** routing::RoutingConstraints: routing_constraints.h 38-50. *)
Record constraints := mk_constraints { allow_switch : bool; max_phase : option Q; max_route : option Q }.

Definition at_most (o : option Q) (f : Q -> bool) : bool := match o with Some m => f m | None => true end.
(** ValidateRoutingConstraints: routing_constraints.cc 36-46. *)
Definition ValidateRoutingConstraints (c : constraints) : outcome unit :=
  throw_unless (at_most (max_phase c) (Qleb 0))
    (throw_unless (at_most (max_route c) (Qleb 0))
       (throw_unless (at_most (max_phase c) (fun p => at_most (max_route c) (Qleb p))) (Ok tt))).

(** std::numeric_limits<double>::max(). *)
Definition dbl_max : Q := inject_Z (2 ^ 1024 - 2 ^ 971).
(** ComputeCost(phase): distance_router.cc 58-64. *)
Definition phase_cost (p : phase) : Q := fold_left (fun c x => cmin c (size (s_range x))) (ph_ranges p) dbl_max.
(** ComputeCost(route): distance_router.cc 70-76. *)
Definition route_cost (r : route) : Q := fold_left (fun c p => c + phase_cost p) r 0.
(** MaxPhaseCostInRoute: distance_router.cc 82-88. *)
Definition max_phase_cost (r : route) : Q := fold_left (fun c p => cmax (phase_cost p) c) r 0.

(** find_position_index: distance_router.cc 101-109. *)
Fixpoint position_index (lane : nat) (l : list rpos) : option nat :=
  match l with
  | [] => None
  | p :: l' => if Nat.eqb (at_lane p) lane then Some O else option_map S (position_index lane l')
  end.
(** The loop of HasLaneSwitch: distance_router.cc 110-124.  Indexing past the end of the
    start positions of the next phase is undefined. *)
Fixpoint switch_loop (lane : nat) (r : list phase) : outcome bool :=
  match r with
  | [] => Ok false
  | p :: r' =>
      match position_index lane (ph_ends p) with
      | None => Ok true
      | Some i =>
          match r' with
          | [] => Ok false
          | q :: _ => match nth_error (ph_starts q) i with Some s => switch_loop (at_lane s) r' | None => UB end
          end
      end
  end.
(** HasLaneSwitch: distance_router.cc 94-125.  front() of no positions is undefined; the
    Phase constructor excludes it. *)
Definition HasLaneSwitch (r : route) : outcome bool :=
  match r with
  | [] => UB
  | p :: r' =>
      match ph_starts p, r' with
      | [], _ => UB
      | s :: _, [] => match ph_ends p with [] => UB | e :: _ => Ok (negb (Nat.eqb (at_lane s) (at_lane e))) end
      | s :: _, _ => switch_loop (at_lane s) r
      end
  end.
(** The predicate of FilterRoutes: distance_router.cc 135-148. *)
Definition keep_route (c : constraints) (r : route) : outcome bool :=
  if negb (at_most (max_phase c) (fun m => negb (Qltb m (max_phase_cost r)))) then Ok false
  else if negb (at_most (max_route c) (fun m => negb (Qltb m (route_cost r)))) then Ok false
  else if allow_switch c then Ok true else omap negb (HasLaneSwitch r).
(** FilterRoutes: distance_router.cc 133-152. *)
Fixpoint FilterRoutes (c : constraints) (rs : list route) : outcome (list route) :=
  match rs with
  | [] => Ok []
  | r :: rs' => obind (keep_route c r) (fun k => omap (fun l => if k : bool then r :: l else l) (FilterRoutes c rs'))
  end.

(** What the router reads besides the network of [Route_Model]: Lane::segment(),
    Segment::lane(i), GetConfluentBranches, GetBranchPoint, the segments on the A side of
    a branch point, and the iteration order of the node map. *)
Record roads := mk_roads {
  net : network;
  seg_of : nat -> nat;
  lanes_of : nat -> list nat;
  confluent : nat -> bool -> list (nat * bool);
  bp_of : nat -> bool -> nat;
  a_side_of : nat -> list nat;
  node_order : list (nat * node) -> list (nat * node) }.

Section Router.
Variable m : roads.

(** ValidateEndToEndConnectivityInRoutes: distance_router.cc 173-178. *)
Fixpoint validate_routes (rs : list route) : outcome unit :=
  match rs with
  | [] => Ok tt
  | r :: rs' => obind (Connected (net m) r) (fun b => throw_unless b (validate_routes rs'))
  end.

(** Lane::length(). *)
Definition length_of (l : nat) : Q := match len (net m) l with Some x => x | None => 0 end.
(** FindEquivalentSCoordinate: distance_router.cc 188-199. *)
Definition FindEquivalentSCoordinate (ref : rpos) (lane : nat) (tol : Q) : outcome Q :=
  let target := length_of lane in
  omap (fun s =>
    if Qleb s tol && Qltb tol target then 0
    else if Qleb (target - s) tol && Qltb tol target then target
    else s)
  (clamp (ps (at_pos ref) / length_of (at_lane ref) * target) 0 target).
Fixpoint phase_ranges (tol : Q) (s e : rpos) (lanes : list nat) : outcome (list lsrange) :=
  match lanes with
  | [] => Ok []
  | l :: lanes' =>
      obind (FindEquivalentSCoordinate s l tol) (fun a =>
      obind (FindEquivalentSCoordinate e l tol) (fun b =>
      obind (SRange a b) (fun x => omap (cons (mk_lsrange l x)) (phase_ranges tol s e lanes'))))
  end.
(** MakePhase: distance_router.cc 218-239. *)
Definition MakePhase (tol : Q) (e : edge) (starts ends : list rpos) : outcome phase :=
  throw_unless (nonempty starts) (throw_unless (nonempty ends) (
  throw_unless (forallb (fun p => Nat.eqb (seg_of m (at_lane p)) (sg_id (e_seg e))) starts) (
  throw_unless (forallb (fun p => Nat.eqb (seg_of m (at_lane p)) (sg_id (e_seg e))) ends) (
  match starts, ends with
  | s :: _, z :: _ => obind (phase_ranges tol s z (lanes_of m (sg_id (e_seg e)))) (fun rs => Phase (net m) tol starts ends rs)
  | _, _ => UB
  end)))).

(** process_positions: distance_router.cc 263-273. *)
Definition end_positions (set : nat -> bool -> list (nat * bool)) (ref : edge) (w : bool) (target : edge) : list rpos :=
  map (fun l => mk_rpos l (mk_lpos (if w then length_of l else 0) 0 0))
    (filter (fun l => existsb (fun x => Nat.eqb (seg_of m (fst x)) (sg_id (e_seg target))) (set l w)) (lanes_of m (sg_id (e_seg ref)))).
(** ComputeAllRoadPositions: distance_router.cc 248-282. *)
Definition ComputeAllRoadPositions (ref : edge) (w : bool) (target : edge) : outcome (list rpos) :=
  let c := end_positions (confluent m) ref w target in
  let l := if nonempty c then c else end_positions (ongoing (net m)) ref w target in
  throw_unless (nonempty l) (Ok l).

(** MaybeAddStartAndEndEdges: distance_router.cc 299-327.  The ids of the edges are those
    of their segments. *)
Definition with_ends (se ee : edge) (es : list edge) : outcome (list edge) :=
  match es, rev es with
  | f :: _, b :: _ =>
      Ok ((if Nat.eqb (sg_id (e_seg f)) (sg_id (e_seg se)) then [] else [se]) ++ es ++
          (if Nat.eqb (sg_id (e_seg b)) (sg_id (e_seg ee)) then [] else [ee]))
  | _, _ => UB
  end.
Fixpoint all_with_ends (se ee : edge) (l : list (list edge)) : outcome (list (list edge)) :=
  match l with
  | [] => Ok []
  | es :: l' => obind (with_ends se ee es) (fun x => omap (cons x) (all_with_ends se ee l'))
  end.
Definition MaybeAddStartAndEndEdges (g : graph) (start goal : rpos) (l : list (list edge)) : outcome (list (list edge)) :=
  obind (gat (g_edges g) (seg_of m (at_lane start))) (fun se =>
  obind (gat (g_edges g) (seg_of m (at_lane goal))) (fun ee => all_with_ends se ee l)).

(** One side of a phase: DetermineEdgeEnd, then ComputeAllRoadPositions. *)
Definition joint (g : graph) (e other : edge) : outcome (list rpos) :=
  obind (DetermineEdgeEnd g e other) (fun w =>
    match w with None => Throw | Some w => ComputeAllRoadPositions e w other end).
(** The phases of one sequence: distance_router.cc 365-406; [prev] is the edge before. *)
Fixpoint make_phases (g : graph) (tol : Q) (start goal : rpos) (prev : option edge) (es : list edge) : outcome (list phase) :=
  match es with
  | [] => Ok []
  | e :: es' =>
      obind (match prev with None => Ok [start] | Some p => joint g e p end) (fun starts =>
      obind (match es' with [] => Ok [goal] | n :: _ => joint g e n end) (fun ends =>
      obind (MakePhase tol e starts ends) (fun ph => omap (cons ph) (make_phases g tol start goal (Some e) es'))))
  end.
Fixpoint make_routes (g : graph) (tol : Q) (start goal : rpos) (l : list (list edge)) : outcome (list route) :=
  match l with
  | [] => Ok []
  | es :: l' =>
      obind (make_phases g tol start goal None es) (fun ps =>
      obind (Route ps) (fun r => omap (cons r) (make_routes g tol start goal l')))
  end.

Record router := mk_router { r_tol : Q; r_graph : graph }.
Definition segment_of (id : nat) : segment := mk_segment id (map (fun l => (bp_of m l false, bp_of m l true)) (lanes_of m id)).
(** DistanceRouter::DistanceRouter: distance_router.cc 331-337; [segs] are the segments
    of all junctions. *)
Definition DistanceRouter (segs : list nat) (tol : Q) : outcome router :=
  obind (BuildGraph (node_order m) (map segment_of segs)) (fun g => throw_unless (Qleb 0 tol) (Ok (mk_router tol g))).

Definition known (l : nat) : bool := match len (net m) l with Some _ => true | None => false end.
(** DistanceRouter::DoComputeRoutes: distance_router.cc 339-417. *)
Definition ComputeRoutes (rt : router) (start goal : rpos) (c : constraints) : outcome (list route) :=
  throw_unless (known (at_lane start)) (throw_unless (known (at_lane goal)) (
  obind (ValidateRoutingConstraints c) (fun _ =>
  match FindNodeAt (node_order m) (r_graph rt) (bp_of m (at_lane start) false), FindNodeAt (node_order m) (r_graph rt) (bp_of m (at_lane goal) true) with
  | Some sn, Some en =>
      obind (FindAllEdgeSequences (a_side_of m) (r_graph rt) sn en) (fun seqs =>
      obind (MaybeAddStartAndEndEdges (r_graph rt) start goal seqs) (fun seqs =>
      obind (make_routes (r_graph rt) (r_tol rt) start goal seqs) (fun rs =>
      obind (FilterRoutes c rs) (fun rs => obind (validate_routes rs) (fun _ => Ok rs)))))
  | _, _ => Throw
  end))).
End Router.
