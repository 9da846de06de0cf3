(** Models of src/maliput/routing/graph/graph.cc and graph_utils.cc.
    Pointers and ids are natural numbers; std::set is an ascending list, so that
    iteration follows the order of the ids (of the addresses for branch points). *)
From Coq Require Import List Arith Bool.
From Verif Require Import Base Maps.
Import ListNotations.

(** The part of api::Segment that is read: id() and, per lane, the branch points of
    its start and finish.  Segment pointers are compared through the id. *)
Record segment := mk_segment { sg_id : nat; sg_lanes : list (nat * nat) }.
(** Edge, Node, Graph: include/maliput/routing/graph/graph.h 48-82. *)
Record edge := mk_edge { e_id : nat; e_seg : segment; e_a : nat; e_b : nat }.
Record node := mk_node { n_id : nat; n_bps : list nat; n_edges : list nat }.
Record graph := mk_graph { g_edges : list (nat * edge); g_nodes : list (nat * node) }.

Definition smem (x : nat) (l : list nat) : bool := existsb (Nat.eqb x) l.
(** std::set::insert. *)
Fixpoint sins (x : nat) (l : list nat) : list nat :=
  match l with
  | [] => [x]
  | y :: l' => if Nat.ltb x y then x :: l else if Nat.eqb x y then l else y :: sins x l'
  end.

(** Lane::GetBranchPoint(end) of a lane; [false] is kStart, [true] kFinish. *)
Definition lane_bp (e : bool) (l : nat * nat) : nat := if e then snd l else fst l.
(** compute_connecting_edges: graph_utils.cc 127-133. *)
Definition end_set (s : segment) (e : bool) : list nat := fold_left (fun acc l => sins (lane_bp e l) acc) (sg_lanes s) [].
(** GetBranchPoints: graph.cc 47-56. *)
Definition GetBranchPoints (s : segment) (e : bool) : outcome (list nat) :=
  throw_unless (Nat.eqb (length (end_set s e)) (length (sg_lanes s))) (Ok (end_set s e)).

Section Build.
(** Iteration order of graph.nodes (an unordered_map). *)
Variable ord : list (nat * node) -> list (nat * node).

(** FindNode: graph.cc 63-72. *)
Definition FindNodeOf (g : graph) (bps : list nat) : option node :=
  option_map snd (find (fun kn => existsb (fun bp => smem bp (n_bps (snd kn))) bps) (ord (g_nodes g))).

(** GetNode: graph.cc 84-95.  Lines 88-91 update a copy that is then dropped.  The
    counter is the id generator of line 102. *)
Definition GetNode (g : graph) (bps : list nat) (next : nat) : node * nat :=
  match FindNodeOf g bps with
  | Some n => (n, next)
  | None => (mk_node next bps [], S next)
  end.

(** BuildGraph, one segment: graph.cc 108-125. *)
Definition add_segment (s : segment) (st : graph * nat) : outcome (graph * nat) :=
  let (g, next) := st in
  obind (GetBranchPoints s false) (fun sb =>
  obind (GetBranchPoints s true) (fun eb =>
    let (sn, next1) := GetNode g sb next in
    let (en, next2) := GetNode g eb next1 in
    let e := mk_edge (sg_id s) s (n_id sn) (n_id en) in
    let sn' := mk_node (n_id sn) (n_bps sn) (sins (e_id e) (n_edges sn)) in
    let en' := mk_node (n_id en) (n_bps en) (sins (e_id e) (n_edges en)) in
    Ok (mk_graph (mset Nat.eqb (e_id e) e (g_edges g))
                 (mset Nat.eqb (n_id en') en' (mset Nat.eqb (n_id sn') sn' (g_nodes g))), next2))).
Fixpoint add_segments (ss : list segment) (st : graph * nat) : outcome (graph * nat) :=
  match ss with [] => Ok st | s :: ss' => obind (add_segment s st) (add_segments ss') end.
(** BuildGraph: graph.cc 99-130; the segments of all junctions in order. *)
Definition BuildGraph (ss : list segment) : outcome graph := omap fst (add_segments ss (mk_graph [] [], 0)).
End Build.

(** map::at *)
Definition gat {V} (m : list (nat * V)) (k : nat) : outcome V :=
  match mfind Nat.eqb k m with Some v => Ok v | None => Throw end.

(** FindAllEdgeSequencesHelper: graph_utils.cc 43-68.  Running out of fuel is [UB];
    the theorems show it does not happen. *)
Fixpoint sequences (fuel : nat) (g : graph) (start : node) (goal : nat) (visited : list nat) : outcome (list (list edge)) :=
  match fuel with
  | O => UB
  | S f =>
      (fix each (es : list nat) : outcome (list (list edge)) :=
         match es with
         | [] => Ok []
         | eid :: es' =>
             obind (gat (g_edges g) eid) (fun e =>
             obind (gat (g_nodes g) (if Nat.eqb (e_a e) (n_id start) then e_b e else e_a e)) (fun v =>
             obind (if smem (n_id v) visited then Ok []
                    else if Nat.eqb (n_id v) goal then Ok [[e]]
                    else omap (map (cons e)) (sequences f g v goal (n_id v :: visited))) (fun here =>
             omap (app here) (each es'))))
         end) (n_edges start)
  end.

Section Drivable.
(** Segments owning the lane ends of BranchPoint::GetASide(). *)
Variable a_side : nat -> list nat.

(** BuildConnectionSet: graph_utils.cc 89-110. *)
Definition connection (e f : edge) : outcome (bool * bool) :=
  if Nat.eqb (e_a e) (e_a f) then Ok (false, false)
  else if Nat.eqb (e_a e) (e_b f) then Ok (false, true)
  else if Nat.eqb (e_b e) (e_a f) then Ok (true, false)
  else if Nat.eqb (e_b e) (e_b f) then Ok (true, true)
  else Throw.
(** EdgesConnectToBranchPointsFromOpposingSides: graph_utils.cc 125-155. *)
Definition opposing (e f : edge) : outcome bool :=
  obind (connection e f) (fun c =>
    match filter (fun bp => smem bp (end_set (e_seg f) (snd c))) (end_set (e_seg e) (fst c)) with
    | [] => Ok false
    | bp :: _ => Ok (negb (Bool.eqb (smem (sg_id (e_seg e)) (a_side bp)) (smem (sg_id (e_seg f)) (a_side bp))))
    end).
(** IsSequenceDrivable: graph_utils.cc 166-179. *)
Fixpoint pairs_drivable (es : list edge) : outcome bool :=
  match es with
  | e :: (f :: _) as es' => obind (opposing e f) (fun x => if x : bool then pairs_drivable es' else Ok false)
  | _ => Ok true
  end.
Definition drivable (es : list edge) : outcome bool :=
  match es with [] => Throw | _ => pairs_drivable es end.
Fixpoint keep_drivable (l : list (list edge)) : outcome (list (list edge)) :=
  match l with
  | [] => Ok []
  | es :: l' => obind (drivable es) (fun x => omap (fun r => if x : bool then es :: r else r) (keep_drivable l'))
  end.
(** FindAllEdgeSequences: graph_utils.cc 183-195. *)
Definition FindAllEdgeSequences (g : graph) (start goal : node) : outcome (list (list edge)) :=
  throw_unless (mhas Nat.eqb (n_id start) (g_nodes g))
    (throw_unless (mhas Nat.eqb (n_id goal) (g_nodes g))
       (if Nat.eqb (n_id start) (n_id goal) then Ok []
        else obind (sequences (S (length (g_nodes g))) g start (n_id goal) [n_id start]) keep_drivable)).
End Drivable.

(** FindNode(graph, lane, end): graph_utils.cc 197-206. *)
Definition FindNodeAt (ord : list (nat * node) -> list (nat * node)) (g : graph) (bp : nat) : option node :=
  option_map snd (find (fun kn => smem bp (n_bps (snd kn))) (ord (g_nodes g))).
(** DetermineEdgeEnd: graph_utils.cc 208-221; [Some false] is kStart. *)
Definition DetermineEdgeEnd (g : graph) (r t : edge) : outcome (option bool) :=
  if Nat.eqb (sg_id (e_seg r)) (sg_id (e_seg t)) then Ok None
  else obind (gat (g_nodes g) (e_a r)) (fun a =>
       if smem (e_id t) (n_edges a) then Ok (Some false)
       else obind (gat (g_nodes g) (e_b r)) (fun b =>
            if smem (e_id t) (n_edges b) then Ok (Some true) else Ok None)).
