(** Specification vocabulary for C14-C16. *)
From Coq Require Import List Bool Arith.
From Verif Require Import Hierarchy_Model.
Import ListNotations.

(** An Add call on the index: kind, id, entity. *)
Definition entry := (kind * nat * nat)%type.
Definition same_kind (a b : kind) : bool :=
  match a, b with KJun, KJun | KSeg, KSeg | KLane, KLane | KBp, KBp => true | _, _ => false end.
(** The entity of the first Add call with this kind and id. *)
Definition first_added (k : kind) (id : nat) (h : list entry) : option nat :=
  match find (fun e : entry => same_kind (fst (fst e)) k && Nat.eqb (snd (fst e)) id) h with
  | Some e => Some (snd e)
  | None => None
  end.

(** The entities of a road geometry in walking order. *)
Definition road_entries (g : road) : list entry :=
  flat_map (fun j : named * list (named * list named) =>
    (KJun, fst (fst j), snd (fst j)) ::
    flat_map (fun s : named * list named =>
      (KSeg, fst (fst s), snd (fst s)) :: map (fun l : named => (KLane, fst l, snd l)) (snd s)) (snd j)) (rd_juns g)
  ++ map (fun b : named => (KBp, fst b, snd b)) (rd_bps g).

Definition injective (f : nat -> nat) : Prop := forall a b, f a = f b -> a = b.

(** Being part of the road geometry, along the containers' own lists. *)
Definition rg_has_junction (s : state) (j : nat) : Prop := In j (rg_juns s).
Definition rg_has_segment (s : state) (x : nat) : Prop := exists j, In j (rg_juns s) /\ In x (jun_segs s j).
Definition rg_has_lane (s : state) (l : nat) : Prop :=
  exists j x, In j (rg_juns s) /\ In x (jun_segs s j) /\ In l (seg_lanes s x).

(** Containers and elements agree. *)
Definition hierarchy_consistent (s : state) : Prop :=
  (forall x i l, nth_error (seg_lanes s x) i = Some l <-> lane_seg s l = Some x /\ lane_idx s l = Some i) /\
  (forall j x, In x (jun_segs s j) <-> seg_jun s x = Some j) /\ (forall j, NoDup (jun_segs s j)) /\
  (forall j, In j (rg_juns s) <-> jun_rg s j = true) /\ NoDup (rg_juns s) /\
  (forall b, In b (rg_bps s) <-> bp_rg s b = true) /\ NoDup (rg_bps s).

(** The index holds exactly the entities of the road geometry. *)
Definition index_exact (lane_id seg_id jun_id bp_id : nat -> nat) (s : state) : Prop :=
  (forall id l, ix_find KLane id (ids s) = Some l <-> rg_has_lane s l /\ lane_id l = id) /\
  (forall id x, ix_find KSeg id (ids s) = Some x <-> rg_has_segment s x /\ seg_id x = id) /\
  (forall id j, ix_find KJun id (ids s) = Some j <-> rg_has_junction s j /\ jun_id j = id) /\
  (forall id b, ix_find KBp id (ids s) = Some b <-> In b (rg_bps s) /\ bp_id b = id).

(** The unique_ptr argument of a call. *)
Definition op_arg (o : op) : kind * nat :=
  match o with
  | OAddLane _ l => (KLane, l)
  | OAddSegment _ x => (KSeg, x)
  | OAddJunction j => (KJun, j)
  | OAddBranchPoint b => (KBp, b)
  end.

(** ** Branch points *)
(** Each lane end is once on one side; confluent and ongoing sets follow; defaults are
    ongoing ends. *)
Definition branch_consistent (b : branch_point) : Prop :=
  NoDup (a_side b ++ b_side b) /\
  (forall e, In e (a_side b) -> GetConfluentBranches b e = Base.Ok (a_side b) /\ GetOngoingBranches b e = Base.Ok (b_side b)) /\
  (forall e, In e (b_side b) -> GetConfluentBranches b e = Base.Ok (b_side b) /\ GetOngoingBranches b e = Base.Ok (a_side b)) /\
  (forall e, ~ In e (a_side b ++ b_side b) ->
     GetConfluentBranches b e = Base.Throw /\ GetOngoingBranches b e = Base.Throw /\ GetDefaultBranch b e = None) /\
  (forall e d, GetDefaultBranch b e = Some d -> (In e (a_side b) /\ In d (b_side b)) \/ (In e (b_side b) /\ In d (a_side b))).

(** Did the call return normally? *)
Fixpoint all_succeed (h : list bop) (s : bstate) : Prop :=
  match h with
  | [] => True
  | o :: h' => snd (bstep o s) = true /\ all_succeed h' (fst (bstep o s))
  end.
