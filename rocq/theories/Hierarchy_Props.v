(** C14-C16: branch points, containers, id index. *)
From Coq Require Import List Bool Arith.
From Verif Require Import Base Maps Hierarchy_Model Hierarchy_Spec Hierarchy_Proofs.
Import ListNotations.

(** C16: after any history of Add calls, lookups return the first entity added. *)
Theorem id_index_first_added : forall (h : list entry) k id,
  ix_find k id (act_run (fun e : entry => ix_add (fst (fst e)) (snd (fst e)) (snd e)) h empty_index) = first_added k id h.
Proof. exact index_run. Qed.
Print Assumptions id_index_first_added.

(** C16: an Add throws exactly on an id already added, and then changes nothing. *)
Theorem id_index_add_throws_iff : forall (h : list entry) k id p,
  let x := act_run (fun e : entry => ix_add (fst (fst e)) (snd (fst e)) (snd e)) h empty_index in
  (snd (ix_add k id p x) = false <-> exists q, first_added k id h = Some q) /\
  (snd (ix_add k id p x) = false -> fst (ix_add k id p x) = x).
Proof. exact index_add_throws. Qed.
Print Assumptions id_index_add_throws_iff.

(** C16: WalkAndAddAll succeeds iff ids are distinct per kind, and then indexes
    exactly the entities of the road geometry. *)
Theorem id_index_walk : forall g,
  (snd (WalkAndAddAll g empty_index) = true <-> NoDup (map fst (road_entries g))) /\
  (snd (WalkAndAddAll g empty_index) = true ->
   forall k id p, ix_find k id (fst (WalkAndAddAll g empty_index)) = Some p <-> In (k, id, p) (road_entries g)).
Proof. exact walk_spec. Qed.
Print Assumptions id_index_walk.

Example id_index_walk_example :
  let g := mk_road [((1, 100), [((1, 101), [(1, 102); (2, 103)]); ((2, 104), [])]); ((2, 105), [])] [(1, 106)] in
  NoDup (map fst (road_entries g)) /\ ix_find KLane 2 (fst (WalkAndAddAll g empty_index)) = Some 103.
Proof. split; [simpl; repeat constructor; simpl; intuition discriminate|reflexivity]. Qed.

(** C15: with distinct ids, after any history of additions in any order: containers
    and back-pointers agree and the index holds exactly the attached entities. *)
Theorem hierarchy_any_order : forall lane_id seg_id jun_id bp_id,
  injective lane_id -> injective seg_id -> injective jun_id -> injective bp_id ->
  forall h, let s := act_run (step lane_id seg_id jun_id bp_id) h init_state in
  hierarchy_consistent s /\ index_exact lane_id seg_id jun_id bp_id s.
Proof.
  intros lane_id seg_id jun_id bp_id A B C D h s.
  pose proof (run_Inv lane_id seg_id jun_id bp_id A B C D h) as I. split; [exact (Inv_consistent _ _ _ _ _ I)|exact (Inv_index _ _ _ _ _ I)].
Qed.
Print Assumptions hierarchy_any_order.

(** C15: a call throws only when its unique_ptr was already given away; then nothing changes. *)
Theorem hierarchy_add_succeeds : forall lane_id seg_id jun_id bp_id,
  injective lane_id -> injective seg_id -> injective jun_id -> injective bp_id ->
  forall h o, let s := act_run (step lane_id seg_id jun_id bp_id) h init_state in
  (moved s (fst (op_arg o)) (snd (op_arg o)) = true -> step lane_id seg_id jun_id bp_id o s = (s, false)) /\
  (moved s (fst (op_arg o)) (snd (op_arg o)) = false -> snd (step lane_id seg_id jun_id bp_id o s) = true).
Proof. exact add_succeeds. Qed.
Print Assumptions hierarchy_add_succeeds.

(** C15: the first time an entity is passed, it has not been given away. *)
Theorem hierarchy_moved_iff : forall lane_id seg_id jun_id bp_id
  h k p, moved (act_run (step lane_id seg_id jun_id bp_id) h init_state) k p = true <-> In (k, p) (map op_arg h).
Proof. exact moved_iff. Qed.
Print Assumptions hierarchy_moved_iff.

(** C15: to_left and to_right are inverse, never fail on attached lanes, and are null
    exactly at the segment's borders. *)
Theorem hierarchy_left_right : forall lane_id seg_id jun_id bp_id,
  injective lane_id -> injective seg_id -> injective jun_id -> injective bp_id ->
  forall h, let s := act_run (step lane_id seg_id jun_id bp_id) h init_state in
  (forall l l', lane_seg s l <> None -> lane_seg s l' <> None -> (to_left s l = Ok (Some l') <-> to_right s l' = Ok (Some l))) /\
  (forall l, lane_seg s l <> None ->
    (exists m, to_left s l = Ok m) /\ (exists m, to_right s l = Ok m) /\ to_left s l <> Ok (Some l) /\
    (to_left s l = Ok None <-> exists x, lane_seg s l = Some x /\ lane_idx s l = Some (length (seg_lanes s x) - 1)) /\
    (to_right s l = Ok None <-> lane_idx s l = Some 0)).
Proof.
  intros lane_id seg_id jun_id bp_id A B C D h s.
  pose proof (run_Inv lane_id seg_id jun_id bp_id A B C D h) as I.
  split; [intros l l'; exact (left_right _ _ _ _ _ l l' I)|intro l; exact (left_total _ _ _ _ _ l I)].
Qed.
Print Assumptions hierarchy_left_right.

(** C15: a duplicate id breaks the index for good: the call throws, yet the junction
    stays in the road geometry without being indexed. *)
Theorem hierarchy_duplicate_id_refuted : exists lane_id h,
  let s := act_run (step lane_id (fun x => x) (fun x => x) (fun x => x)) h init_state in
  exists j, rg_has_junction s j /\ ix_find KJun j (ids s) = None.
Proof. exact duplicate_partial. Qed.
Print Assumptions hierarchy_duplicate_id_refuted.

Example hierarchy_example : let f := fun x => x in
  let s := act_run (step f f f f) [OAddJunction 1; OAddLane 5 8; OAddSegment 1 5; OAddLane 5 9; OAddLane 5 8; OAddSegment 2 6; OAddLane 6 7; OAddJunction 2; OAddBranchPoint 3] init_state in
  injective f /\ ix_find KLane 9 (ids s) = Some 9 /\ ix_find KLane 7 (ids s) = Some 7 /\ ix_find KSeg 6 (ids s) = Some 6 /\
  to_left s 8 = Ok (Some 9) /\ to_right s 9 = Ok (Some 8).
Proof. split; [intros a b H; exact H|]. vm_compute. auto 10. Qed.

(** C14: after any history of calls (failing ones included) every branch point is consistent. *)
Theorem branch_point_consistent : forall h p, branch_consistent (bps (act_run bstep h init_bstate) p).
Proof. intros h p. apply BInv_consistent. apply (run_BState h). Qed.
Print Assumptions branch_point_consistent.

(** C14: exactly when AddABranch/AddBBranch and SetDefault return normally. *)
Theorem branch_point_add_ok_iff : forall h p l w side, let s := act_run bstep h init_bstate in
  snd (AddBranch p l w side s) = true <->
  exists x, l = Some x /\ ~ In (x, w) (a_side (bps s p) ++ b_side (bps s p)) /\ lane_bp s (x, w) = None.
Proof. exact add_branch_ok_iff. Qed.
Print Assumptions branch_point_add_ok_iff.

Theorem branch_point_set_default_ok_iff : forall h p e d, let s := act_run bstep h init_bstate in
  snd (SetDefault p e d s) = true <->
  (In e (a_side (bps s p)) /\ In d (b_side (bps s p))) \/ (In e (b_side (bps s p)) /\ In d (a_side (bps s p))).
Proof. exact set_default_ok_iff. Qed.
Print Assumptions branch_point_set_default_ok_iff.

(** C14: the effect of a successful call, and nothing else. *)
Theorem branch_point_add_effect : forall h p x w side, let s := act_run bstep h init_bstate in
  snd (AddBranch p (Some x) w side s) = true ->
  let s' := fst (AddBranch p (Some x) w side s) in
  a_side (bps s' p) = a_side (bps s p) ++ (if side then [(x, w)] else []) /\
  b_side (bps s' p) = b_side (bps s p) ++ (if side then [] else [(x, w)]) /\
  lane_bp s' (x, w) = Some p /\
  (forall e, e <> (x, w) -> lane_bp s' e = lane_bp s e) /\ (forall q, q <> p -> bps s' q = bps s q) /\
  (forall e, GetDefaultBranch (bps s' p) e = GetDefaultBranch (bps s p) e).
Proof. exact add_branch_effect. Qed.
Print Assumptions branch_point_add_effect.

Theorem branch_point_set_default_effect : forall h p e d, let s := act_run bstep h init_bstate in
  snd (SetDefault p e d s) = true ->
  let s' := fst (SetDefault p e d s) in
  a_side (bps s' p) = a_side (bps s p) /\ b_side (bps s' p) = b_side (bps s p) /\ lane_bp s' = lane_bp s /\
  GetDefaultBranch (bps s' p) e = Some d /\ (forall e', e' <> e -> GetDefaultBranch (bps s' p) e' = GetDefaultBranch (bps s p) e').
Proof. exact set_default_effect. Qed.
Print Assumptions branch_point_set_default_effect.

(** C14: a lane end pointing to a branch point is one of its ends; conversely every
    end of a branch point points to it as long as no call threw. *)
Theorem branch_point_back_pointer : forall h e p, let s := act_run bstep h init_bstate in
  (lane_bp s e = Some p -> In e (a_side (bps s p) ++ b_side (bps s p))) /\
  (In e (a_side (bps s p) ++ b_side (bps s p)) -> lane_bp s e <> None).
Proof. exact branch_back_any. Qed.
Print Assumptions branch_point_back_pointer.

Theorem branch_point_back_pointer_success : forall h, all_succeed h init_bstate ->
  let s := act_run bstep h init_bstate in
  forall e p, In e (a_side (bps s p) ++ b_side (bps s p)) -> lane_bp s e = Some p.
Proof. exact branch_back_success. Qed.
Print Assumptions branch_point_back_pointer_success.

(** C14: a lane end already claimed by another branch point makes AddABranch throw, yet
    it stays recorded in this one. *)
Theorem branch_point_back_pointer_refuted : exists h e p,
  let s := act_run bstep h init_bstate in
  In e (a_side (bps s p) ++ b_side (bps s p)) /\ lane_bp s e <> Some p.
Proof. exact branch_partial_update. Qed.
Print Assumptions branch_point_back_pointer_refuted.

Example branch_point_example :
  let h := [OAddBranch 0 (Some 1) false true; OAddBranch 0 (Some 2) true false; OAddBranch 0 (Some 3) true false; OSetDefault 0 (1, false) (3, true)] in
  all_succeed h init_bstate /\
  GetDefaultBranch (bps (act_run bstep h init_bstate) 0) (1, false) = Some (3, true).
Proof. vm_compute. auto 10. Qed.
