(** Model of the entity containers: src/maliput/geometry_base/{lane,segment,junction,
    road_geometry,branch_point}.cc, include/maliput/geometry_base/lane_end_set.h and
    src/maliput/api/basic_id_index.cc.
    Objects are pointers ([nat]); ids are [nat].  Only the containment, indexing and
    branching state is kept; geometry is not. *)
From Coq Require Import List Bool Arith.
From Verif Require Import Base Maps.
Import ListNotations.

(** ** BasicIdIndex: basic_id_index.h 93-96. *)
Definition idmap := list (nat * nat).
Record index := mk_index { ix_jun : idmap; ix_seg : idmap; ix_lane : idmap; ix_bp : idmap }.
Definition empty_index := mk_index [] [] [] [].

Inductive kind := KJun | KSeg | KLane | KBp.
Definition ix_get (k : kind) (x : index) : idmap :=
  match k with KJun => ix_jun x | KSeg => ix_seg x | KLane => ix_lane x | KBp => ix_bp x end.
Definition ix_put (k : kind) (x : index) (m : idmap) : index :=
  match k with
  | KJun => mk_index m (ix_seg x) (ix_lane x) (ix_bp x)
  | KSeg => mk_index (ix_jun x) m (ix_lane x) (ix_bp x)
  | KLane => mk_index (ix_jun x) (ix_seg x) m (ix_bp x)
  | KBp => mk_index (ix_jun x) (ix_seg x) (ix_lane x) m
  end.

(** AddLane, AddSegment, AddJunction, AddBranchPoint: basic_id_index.cc 37-49. *)
Definition ix_add (k : kind) (id p : nat) : action index := fun x =>
  match memplace Nat.eqb id p (ix_get k x) with
  | Some m => (ix_put k x m, true)
  | None => (x, false)
  end.

(** DoGetLane etc., find_or_nullptr: basic_id_index.cc 68-86. *)
Definition ix_find (k : kind) (id : nat) (x : index) : option nat := mfind Nat.eqb id (ix_get k x).

(** BasicIdIndex::WalkAndAddAll: basic_id_index.cc 51-66.  A road geometry is given
    as its junctions with their segments with their lanes (id, pointer), and its
    branch points. *)
Definition named := (nat * nat)%type.
Record road := mk_road { rd_juns : list (named * list (named * list named)); rd_bps : list named }.
Definition WalkAndAddAll (g : road) : action index :=
  act_each (fun j : named * list (named * list named) =>
      ix_add KJun (fst (fst j)) (snd (fst j)) ;;
      act_each (fun s : named * list named =>
        ix_add KSeg (fst (fst s)) (snd (fst s)) ;;
        act_each (fun l : named => ix_add KLane (fst l) (snd l)) (snd s)) (snd j)) (rd_juns g) ;;
  act_each (fun b : named => ix_add KBp (fst b) (snd b)) (rd_bps g).

(** ** Containers *)
Section Hier.
(** Ids given to the constructors. *)
Variables lane_id seg_id jun_id bp_id : nat -> nat.

Record state := mk_state {
  lane_seg : nat -> option nat;        (* Lane::segment_ *)
  lane_idx : nat -> option nat;        (* Lane::index_, None for -1 *)
  seg_lanes : nat -> list nat;         (* Segment::lanes_ *)
  seg_jun : nat -> option nat;         (* Segment::junction_ *)
  seg_cb : nat -> bool;                (* Segment::lane_indexing_callback_ set *)
  jun_segs : nat -> list nat;          (* Junction::segments_ *)
  jun_rg : nat -> bool;                (* Junction::road_geometry_ set *)
  jun_cb : nat -> bool;                (* Junction's two callbacks set *)
  rg_juns : list nat;                  (* RoadGeometry::junctions_ *)
  rg_bps : list nat;                   (* RoadGeometry::branch_points_ *)
  bp_rg : nat -> bool;                 (* BranchPoint::road_geometry_ set *)
  ids : index;                         (* RoadGeometry::id_index_ *)
  moved : kind -> nat -> bool          (* the caller's unique_ptr was moved from *)
}.

Definition init_state : state :=
  mk_state (fun _ => None) (fun _ => None) (fun _ => []) (fun _ => None) (fun _ => false)
    (fun _ => []) (fun _ => false) (fun _ => false) [] [] (fun _ => false) empty_index (fun _ _ => false).

Definition set_lane (l : nat) (seg : option nat) (i : option nat) (s : state) : state :=
  mk_state (upd (lane_seg s) l seg) (upd (lane_idx s) l i) (seg_lanes s) (seg_jun s) (seg_cb s) (jun_segs s)
    (jun_rg s) (jun_cb s) (rg_juns s) (rg_bps s) (bp_rg s) (ids s) (moved s).
Definition set_seg_lanes (x : nat) (v : list nat) (s : state) : state :=
  mk_state (lane_seg s) (lane_idx s) (upd (seg_lanes s) x v) (seg_jun s) (seg_cb s) (jun_segs s)
    (jun_rg s) (jun_cb s) (rg_juns s) (rg_bps s) (bp_rg s) (ids s) (moved s).
Definition set_seg_jun (x : nat) (v : option nat) (s : state) : state :=
  mk_state (lane_seg s) (lane_idx s) (seg_lanes s) (upd (seg_jun s) x v) (seg_cb s) (jun_segs s)
    (jun_rg s) (jun_cb s) (rg_juns s) (rg_bps s) (bp_rg s) (ids s) (moved s).
Definition set_seg_cb (x : nat) (s : state) : state :=
  mk_state (lane_seg s) (lane_idx s) (seg_lanes s) (seg_jun s) (upd (seg_cb s) x true) (jun_segs s)
    (jun_rg s) (jun_cb s) (rg_juns s) (rg_bps s) (bp_rg s) (ids s) (moved s).
Definition set_jun_segs (x : nat) (v : list nat) (s : state) : state :=
  mk_state (lane_seg s) (lane_idx s) (seg_lanes s) (seg_jun s) (seg_cb s) (upd (jun_segs s) x v)
    (jun_rg s) (jun_cb s) (rg_juns s) (rg_bps s) (bp_rg s) (ids s) (moved s).
Definition set_jun_rg (x : nat) (s : state) : state :=
  mk_state (lane_seg s) (lane_idx s) (seg_lanes s) (seg_jun s) (seg_cb s) (jun_segs s)
    (upd (jun_rg s) x true) (jun_cb s) (rg_juns s) (rg_bps s) (bp_rg s) (ids s) (moved s).
Definition set_jun_cb (x : nat) (s : state) : state :=
  mk_state (lane_seg s) (lane_idx s) (seg_lanes s) (seg_jun s) (seg_cb s) (jun_segs s)
    (jun_rg s) (upd (jun_cb s) x true) (rg_juns s) (rg_bps s) (bp_rg s) (ids s) (moved s).
Definition set_rg_juns (v : list nat) (s : state) : state :=
  mk_state (lane_seg s) (lane_idx s) (seg_lanes s) (seg_jun s) (seg_cb s) (jun_segs s)
    (jun_rg s) (jun_cb s) v (rg_bps s) (bp_rg s) (ids s) (moved s).
Definition set_rg_bps (v : list nat) (s : state) : state :=
  mk_state (lane_seg s) (lane_idx s) (seg_lanes s) (seg_jun s) (seg_cb s) (jun_segs s)
    (jun_rg s) (jun_cb s) (rg_juns s) v (bp_rg s) (ids s) (moved s).
Definition set_bp_rg (x : nat) (s : state) : state :=
  mk_state (lane_seg s) (lane_idx s) (seg_lanes s) (seg_jun s) (seg_cb s) (jun_segs s)
    (jun_rg s) (jun_cb s) (rg_juns s) (rg_bps s) (upd (bp_rg s) x true) (ids s) (moved s).
Definition set_ids (v : index) (s : state) : state :=
  mk_state (lane_seg s) (lane_idx s) (seg_lanes s) (seg_jun s) (seg_cb s) (jun_segs s)
    (jun_rg s) (jun_cb s) (rg_juns s) (rg_bps s) (bp_rg s) v (moved s).
Definition kind_eqb (a b : kind) : bool :=
  match a, b with KJun, KJun | KSeg, KSeg | KLane, KLane | KBp, KBp => true | _, _ => false end.
Definition set_moved (k : kind) (x : nat) (s : state) : state :=
  mk_state (lane_seg s) (lane_idx s) (seg_lanes s) (seg_jun s) (seg_cb s) (jun_segs s)
    (jun_rg s) (jun_cb s) (rg_juns s) (rg_bps s) (bp_rg s) (ids s)
    (fun k' y => if kind_eqb k' k && Nat.eqb y x then true else moved s k' y).

(** The indexing callbacks installed by RoadGeometry::AddJunctionPrivate
    (road_geometry.cc 47-48) and the direct calls (50, 59). *)
Definition index_add (k : kind) (id p : nat) : action state := fun s =>
  let (x, ok) := ix_add k id p (ids s) in (set_ids x s, ok).

(** Ownership: a moved-from unique_ptr is null and AddXPrivate throws on null
    (segment.cc 62, junction.cc 63, road_geometry.cc 43 and 55). *)
Definition take (k : kind) (p : nat) : action state :=
  act_check (fun s => negb (moved s k p)) ;; act_do (set_moved k p).

(** Lane::AttachToSegment: lane.cc 39-49. *)
Definition AttachToSegment (l seg index : nat) : action state :=
  act_check (fun s => match lane_seg s l with None => true | _ => false end) ;;
  act_check (fun s => match lane_idx s l with None => true | _ => false end) ;;
  act_do (set_lane l (Some seg) (Some index)).

(** Segment::AddLanePrivate: segment.cc 60-70. *)
Definition AddLane (seg l : nat) : action state :=
  take KLane l ;;
  act_do (fun s => set_seg_lanes seg (seg_lanes s seg ++ [l]) s) ;;
  (fun s => AttachToSegment l seg (length (seg_lanes s seg) - 1) s) ;;
  act_when (fun s => seg_cb s seg) (index_add KLane (lane_id l) l).

(** Segment::AttachToJunction: segment.cc 37-44. *)
Definition AttachToJunction (seg j : nat) : action state :=
  act_check (fun s => match seg_jun s seg with None => true | _ => false end) ;;
  act_do (set_seg_jun seg (Some j)).

(** Segment::SetLaneIndexingCallback: segment.cc 46-58. *)
Definition SetLaneIndexingCallback (seg : nat) : action state :=
  act_check (fun s => negb (seg_cb s seg)) ;;
  act_do (set_seg_cb seg) ;;
  (fun s => act_each (fun l => index_add KLane (lane_id l) l) (seg_lanes s seg) s).

(** Junction::AddSegmentPrivate: junction.cc 61-74. *)
Definition AddSegment (j seg : nat) : action state :=
  take KSeg seg ;;
  act_do (fun s => set_jun_segs j (jun_segs s j ++ [seg]) s) ;;
  AttachToJunction seg j ;;
  act_when (fun s => jun_cb s j) (index_add KSeg (seg_id seg) seg) ;;
  act_when (fun s => jun_cb s j) (SetLaneIndexingCallback seg).

(** Junction::AttachToRoadGeometry: junction.cc 37-59. *)
Definition AttachToRoadGeometry (j : nat) : action state :=
  act_check (fun s => negb (jun_rg s j)) ;;
  act_check (fun s => negb (jun_cb s j)) ;;
  act_do (set_jun_rg j) ;;
  act_do (set_jun_cb j) ;;
  (fun s => act_each (fun seg => index_add KSeg (seg_id seg) seg ;; SetLaneIndexingCallback seg) (jun_segs s j) s).

(** RoadGeometry::AddJunctionPrivate: road_geometry.cc 41-51. *)
Definition AddJunction (j : nat) : action state :=
  take KJun j ;;
  act_do (fun s => set_rg_juns (rg_juns s ++ [j]) s) ;;
  AttachToRoadGeometry j ;;
  index_add KJun (jun_id j) j.

(** RoadGeometry::AddBranchPointPrivate: road_geometry.cc 53-60, with
    BranchPoint::AttachToRoadGeometry: branch_point.cc 40-46. *)
Definition AddBranchPoint (b : nat) : action state :=
  take KBp b ;;
  act_do (fun s => set_rg_bps (rg_bps s ++ [b]) s) ;;
  act_check (fun s => negb (bp_rg s b)) ;;
  act_do (set_bp_rg b) ;;
  index_add KBp (bp_id b) b.

Inductive op :=
| OAddLane (seg l : nat)
| OAddSegment (j seg : nat)
| OAddJunction (j : nat)
| OAddBranchPoint (b : nat).
Definition step (o : op) : action state :=
  match o with
  | OAddLane seg l => AddLane seg l
  | OAddSegment j seg => AddSegment j seg
  | OAddJunction j => AddJunction j
  | OAddBranchPoint b => AddBranchPoint b
  end.

(** Lane::do_to_left, do_to_right: lane.cc 75-89.  A null segment_ is dereferenced. *)
Definition lane_at (s : state) (seg i : nat) : outcome (option nat) :=
  match nth_error (seg_lanes s seg) i with Some l => Ok (Some l) | None => Throw end.
Definition to_left (s : state) (l : nat) : outcome (option nat) :=
  match lane_seg s l, lane_idx s l with
  | Some seg, Some i => if Nat.eqb (S i) (length (seg_lanes s seg)) then Ok None else lane_at s seg (S i)
  | _, _ => UB
  end.
Definition to_right (s : state) (l : nat) : outcome (option nat) :=
  match lane_seg s l, lane_idx s l with
  | Some seg, Some i => match i with O => Ok None | S i' => lane_at s seg i' end
  | _, _ => UB
  end.
End Hier.

(** ** BranchPoint *)
(** api::LaneEnd with StrictOrder: lane_data.h 44-73.  [true] is kStart.  [None] is a
    null lane pointer. *)
Definition lane_end := (nat * bool)%type.
Definition le_eqb (a b : lane_end) : bool := Nat.eqb (fst a) (fst b) && Bool.eqb (snd a) (snd b).

(** The sets a branch point points into: [true] is &a_side_, [false] is &b_side_. *)
Record branch_point := mk_bp {
  a_side : list lane_end; b_side : list lane_end;
  confluent : list (lane_end * bool); ongoing : list (lane_end * bool);
  defaults : list (lane_end * lane_end)
}.
Definition empty_bp := mk_bp [] [] [] [] [].

(** All branch points and the lanes' start_branch_point_/finish_branch_point_. *)
Record bstate := mk_bstate { bps : nat -> branch_point; lane_bp : lane_end -> option nat }.
Definition init_bstate : bstate := mk_bstate (fun _ => empty_bp) (fun _ => None).

(** LaneEndSet::Add: lane_end_set.h 52-56. *)
Definition side_add (side : bool) (e : lane_end) (b : branch_point) : branch_point :=
  if side then mk_bp (a_side b ++ [e]) (b_side b) (confluent b) (ongoing b) (defaults b)
  else mk_bp (a_side b) (b_side b ++ [e]) (confluent b) (ongoing b) (defaults b).
Definition set_confluent (e : lane_end) (side : bool) (b : branch_point) : branch_point :=
  mk_bp (a_side b) (b_side b) (mset le_eqb e side (confluent b)) (ongoing b) (defaults b).
Definition set_ongoing (e : lane_end) (side : bool) (b : branch_point) : branch_point :=
  mk_bp (a_side b) (b_side b) (confluent b) (mset le_eqb e side (ongoing b)) (defaults b).
Definition set_default (e d : lane_end) (b : branch_point) : branch_point :=
  mk_bp (a_side b) (b_side b) (confluent b) (ongoing b) (mset le_eqb e d (defaults b)).
Definition set_bp (p : nat) (b : branch_point) (s : bstate) : bstate := mk_bstate (upd (bps s) p b) (lane_bp s).
Definition set_lane_bp (e : lane_end) (p : nat) (s : bstate) : bstate :=
  mk_bstate (bps s) (fun x => if le_eqb x e then Some p else lane_bp s x).

(** BranchPoint::AddBranch: branch_point.cc 48-71, with Lane::SetStartBranchPoint and
    SetFinishBranchPoint: lane.cc 51-67. *)
Definition AddBranch (p : nat) (lane : option nat) (which side : bool) : action bstate :=
  match lane with
  | None => fun s => (s, false)
  | Some l =>
      let e := (l, which) in
      act_check (fun s => negb (mhas le_eqb e (confluent (bps s p)))) ;;
      act_check (fun s => negb (mhas le_eqb e (ongoing (bps s p)))) ;;
      act_do (fun s => set_bp p (side_add side e (bps s p)) s) ;;
      act_do (fun s => set_bp p (set_confluent e side (bps s p)) s) ;;
      act_do (fun s => set_bp p (set_ongoing e (negb side) (bps s p)) s) ;;
      act_check (fun s => match lane_bp s e with None => true | _ => false end) ;;
      act_do (set_lane_bp e p)
  end.

(** BranchPoint::SetDefault: branch_point.cc 73-85. *)
Definition SetDefault (p : nat) (e d : lane_end) : action bstate :=
  act_check (fun s => mhas le_eqb e (ongoing (bps s p))) ;;
  act_check (fun s => mhas le_eqb d (confluent (bps s p))) ;;
  act_check (fun s => match mfind le_eqb d (confluent (bps s p)), mfind le_eqb e (ongoing (bps s p)) with
                      | Some a, Some b => Bool.eqb a b | _, _ => false end) ;;
  act_do (fun s => set_bp p (set_default e d (bps s p)) s).

Inductive bop :=
| OAddBranch (p : nat) (lane : option nat) (which side : bool)
| OSetDefault (p : nat) (e d : lane_end).
Definition bstep (o : bop) : action bstate :=
  match o with
  | OAddBranch p lane which side => AddBranch p lane which side
  | OSetDefault p e d => SetDefault p e d
  end.

(** GetConfluentBranches, GetOngoingBranches, GetDefaultBranch: branch_point.cc 91-105. *)
Definition side_of (b : branch_point) (s : bool) : list lane_end := if s then a_side b else b_side b.
Definition GetConfluentBranches (b : branch_point) (e : lane_end) : outcome (list lane_end) :=
  match mfind le_eqb e (confluent b) with Some s => Ok (side_of b s) | None => Throw end.
Definition GetOngoingBranches (b : branch_point) (e : lane_end) : outcome (list lane_end) :=
  match mfind le_eqb e (ongoing b) with Some s => Ok (side_of b s) | None => Throw end.
Definition GetDefaultBranch (b : branch_point) (e : lane_end) : option lane_end := mfind le_eqb e (defaults b).
