From Coq Require Import List Bool Arith Lia.
From Verif Require Import Base Maps Hierarchy_Model Hierarchy_Spec.
Import ListNotations.

Lemma nat_eqb_ok a b : Nat.eqb a b = true <-> a = b.
Proof. apply Nat.eqb_eq. Qed.

(** ** Index *)
Lemma same_kind_ok a b : same_kind a b = true <-> a = b.
Proof. destruct a, b; simpl; split; congruence. Qed.

Lemma ix_get_put k k' x m : ix_get k (ix_put k' x m) = if same_kind k k' then m else ix_get k x.
Proof. destruct k, k'; reflexivity. Qed.

Lemma ix_add_spec k id p x :
  (ix_find k id x = None /\ exists x', ix_add k id p x = (x', true) /\
     forall k' id', ix_find k' id' x' = if same_kind k' k && Nat.eqb id' id then Some p else ix_find k' id' x) \/
  ((exists q, ix_find k id x = Some q) /\ ix_add k id p x = (x, false)).
Proof.
  unfold ix_add, ix_find. pose proof (memplace_spec Nat.eqb nat_eqb_ok id p (ix_get k x)) as M.
  destruct (memplace Nat.eqb id p (ix_get k x)) as [m|].
  - left. destruct M as (A & _ & B). split; [exact A|]. eexists; split; [reflexivity|]. intros k' id'.
    rewrite ix_get_put. destruct (same_kind k' k) eqn:E; simpl; [|reflexivity].
    apply same_kind_ok in E; subst. apply B.
  - right. split; [exact M|reflexivity].
Qed.

Definition add_entry (e : entry) : action index := ix_add (fst (fst e)) (snd (fst e)) (snd e).

Lemma first_added_app k id h e : first_added k id (h ++ [e]) =
  match first_added k id h with Some p => Some p
  | None => if same_kind (fst (fst e)) k && Nat.eqb (snd (fst e)) id then Some (snd e) else None end.
Proof.
  unfold first_added. induction h as [|a h IH]; simpl.
  - destruct (same_kind _ _ && _); reflexivity.
  - destruct (same_kind (fst (fst a)) k && Nat.eqb (snd (fst a)) id); auto.
Qed.

Lemma same_kind_sym a b : same_kind a b = same_kind b a.
Proof. destruct a, b; reflexivity. Qed.

Lemma index_run h : forall k id, ix_find k id (act_run add_entry h empty_index) = first_added k id h.
Proof.
  induction h as [|e h IH] using rev_ind; intros k id.
  - destruct k; reflexivity.
  - rewrite act_run_app, first_added_app. cbn [act_run]. destruct e as [[k0 id0] p0].
    set (x := act_run add_entry h empty_index) in *. unfold add_entry; cbn [fst snd].
    destruct (ix_add_spec k0 id0 p0 x) as [(N & x' & -> & F)|((q & Q) & ->)]; cbn [fst].
    + rewrite F. rewrite same_kind_sym, Nat.eqb_sym. destruct (same_kind k0 k && Nat.eqb id0 id) eqn:E.
      * apply andb_true_iff in E. destruct E as [E1 E2]. apply same_kind_ok in E1. apply Nat.eqb_eq in E2. subst.
        rewrite <- IH, N. reflexivity.
      * rewrite <- IH. destruct (ix_find k id x); reflexivity.
    + rewrite <- IH. destruct (ix_find k id x) eqn:Ef; auto.
      destruct (same_kind k0 k && Nat.eqb id0 id) eqn:E; auto.
      apply andb_true_iff in E. destruct E as [E1 E2]. apply same_kind_ok in E1. apply Nat.eqb_eq in E2. subst. congruence.
Qed.

Lemma index_add_throws h k id p :
  let x := act_run add_entry h empty_index in
  (snd (ix_add k id p x) = false <-> exists q, first_added k id h = Some q) /\
  (snd (ix_add k id p x) = false -> fst (ix_add k id p x) = x).
Proof.
  intro x. rewrite <- index_run. fold x.
  destruct (ix_add_spec k id p x) as [(N & x' & -> & F)|((q & Q) & ->)]; cbn [fst snd]; split.
  - rewrite N. split; [discriminate|intros [q Q]; discriminate].
  - discriminate.
  - split; eauto.
  - reflexivity.
Qed.

Lemma act_each_app {S A} (f : A -> action S) l1 l2 s : act_each f (l1 ++ l2) s = (act_each f l1 ;; act_each f l2) s.
Proof.
  revert s. induction l1 as [|a l1 IH]; intro s; [reflexivity|].
  simpl. unfold act_seq in *. destruct (f a s) as [s' [|]]; auto.
Qed.
Lemma act_each_map {S A B} (f : A -> action S) (g : B -> A) l s : act_each f (map g l) s = act_each (fun b => f (g b)) l s.
Proof. revert s. induction l as [|a l IH]; intro s; [reflexivity|]. simpl. unfold act_seq. destruct (f (g a) s) as [s' [|]]; auto. Qed.
Lemma act_each_flat {S A B} (f : A -> action S) (g : B -> list A) l s : act_each f (flat_map g l) s = act_each (fun b => act_each f (g b)) l s.
Proof.
  revert s. induction l as [|a l IH]; intro s; [reflexivity|]. simpl. rewrite act_each_app. unfold act_seq.
  destruct (act_each f (g a) s) as [s' [|]]; auto.
Qed.
Lemma act_each_ext {S A} (f g : A -> action S) l : (forall a s, f a s = g a s) -> forall s, act_each f l s = act_each g l s.
Proof. intro H. induction l as [|a l IH]; intro s; [reflexivity|]. simpl. unfold act_seq. rewrite H. destruct (g a s) as [s' [|]]; auto. Qed.

Lemma walk_flat g x : WalkAndAddAll g x = act_each add_entry (road_entries g) x.
Proof.
  unfold WalkAndAddAll, road_entries. rewrite act_each_app. unfold act_seq at 1 4.
  assert (E : forall x, act_each (fun j : named * list (named * list named) =>
      ix_add KJun (fst (fst j)) (snd (fst j)) ;;
      act_each (fun s : named * list named =>
        ix_add KSeg (fst (fst s)) (snd (fst s)) ;;
        act_each (fun l : named => ix_add KLane (fst l) (snd l)) (snd s)) (snd j)) (rd_juns g) x
    = act_each add_entry (flat_map (fun j : named * list (named * list named) =>
    (KJun, fst (fst j), snd (fst j)) ::
    flat_map (fun s : named * list named =>
      (KSeg, fst (fst s), snd (fst s)) :: map (fun l : named => (KLane, fst l, snd l)) (snd s)) (snd j)) (rd_juns g)) x).
  { intro y. rewrite act_each_flat. apply act_each_ext. intros j s. cbn [act_each]. unfold add_entry at 1; cbn [fst snd].
    unfold act_seq. destruct (ix_add KJun (fst (fst j)) (snd (fst j)) s) as [s' [|]]; auto.
    rewrite act_each_flat. apply act_each_ext. intros sg s2. cbn [act_each]. unfold add_entry at 1; cbn [fst snd].
    unfold act_seq. destruct (ix_add KSeg (fst (fst sg)) (snd (fst sg)) s2) as [s3 [|]]; auto.
    rewrite act_each_map. reflexivity. }
  rewrite E. destruct (act_each add_entry _ x) as [s' [|]]; auto. rewrite act_each_map. reflexivity.
Qed.

(** adding a list of entries, stopping at the first throw *)
Lemma each_entries es : forall x,
  (NoDup (map fst es) /\ (forall e, In e es -> ix_find (fst (fst e)) (snd (fst e)) x = None)) ->
  exists x', act_each add_entry es x = (x', true) /\
    forall k id p, ix_find k id x' = Some p <-> ix_find k id x = Some p \/ In (k, id, p) es.
Proof.
  induction es as [|[[k0 id0] p0] es IH]; intros x [N F].
  - exists x. split; [reflexivity|]. simpl; tauto.
  - simpl in N. inversion N as [|? ? N1 N2]; subst. cbn [act_each]. unfold act_seq, add_entry at 1; cbn [fst snd].
    destruct (ix_add_spec k0 id0 p0 x) as [(N0 & x1 & -> & G)|((q & Q) & _)].
    + destruct (IH x1) as (x' & E & H).
      { split; [exact N2|]. intros e I. rewrite G. destruct e as [[k1 id1] p1]; cbn [fst snd].
        destruct (same_kind k1 k0 && Nat.eqb id1 id0) eqn:Eq.
        - apply andb_true_iff in Eq. destruct Eq as [E1 E2]. apply same_kind_ok in E1. apply Nat.eqb_eq in E2. subst.
          exfalso. apply N1. apply in_map_iff. exists (k0, id0, p1). auto.
        - apply (F (k1, id1, p1)). right; exact I. }
      exists x'. split; [exact E|]. intros k id p. rewrite H, G.
      destruct (same_kind k k0 && Nat.eqb id id0) eqn:Eq.
      * apply andb_true_iff in Eq. destruct Eq as [E1 E2]. apply same_kind_ok in E1. apply Nat.eqb_eq in E2. subst. simpl. rewrite N0.
        split; [intros [A|A]|intros [A|[A|A]]]; auto; try (inversion A; subst; auto).
      * simpl. split; [intros [A|A]; auto|]. intros [A|[A|A]]; auto. inversion A; subst. exfalso.
        rewrite Nat.eqb_refl in Eq. destruct k; discriminate.
    + exfalso. specialize (F (k0, id0, p0) (or_introl eq_refl)). simpl in F. congruence.
Qed.

Lemma each_entries_ok es : forall x x', act_each add_entry es x = (x', true) ->
  NoDup (map fst es) /\ (forall e, In e es -> ix_find (fst (fst e)) (snd (fst e)) x = None).
Proof.
  induction es as [|[[k0 id0] p0] es IH]; intros x x' E.
  - split; [constructor|simpl; tauto].
  - cbn [act_each] in E. unfold act_seq, add_entry at 1 in E; cbn [fst snd] in E.
    destruct (ix_add_spec k0 id0 p0 x) as [(N0 & x1 & X & G)|((q & Q) & X)]; rewrite X in E; [|discriminate].
    destruct (IH x1 x' E) as [A B]. split.
    + simpl. constructor; auto. intro I. apply in_map_iff in I. destruct I as ([[k1 id1] p1] & Z & I). simpl in Z. inversion Z; subst.
      specialize (B _ I). cbn [fst snd] in B. rewrite G, Nat.eqb_refl in B. destruct k0; discriminate.
    + intros e [I|I]; [subst; exact N0|]. specialize (B e I). rewrite G in B.
      destruct (same_kind (fst (fst e)) k0 && Nat.eqb (snd (fst e)) id0); [discriminate|exact B].
Qed.

Lemma walk_spec g :
  (snd (WalkAndAddAll g empty_index) = true <-> NoDup (map fst (road_entries g))) /\
  (snd (WalkAndAddAll g empty_index) = true ->
   forall k id p, ix_find k id (fst (WalkAndAddAll g empty_index)) = Some p <-> In (k, id, p) (road_entries g)).
Proof.
  rewrite walk_flat.
  assert (Z : forall k id, ix_find k id empty_index = None) by (intros [] ?; reflexivity).
  assert (K : NoDup (map fst (road_entries g)) -> exists x', act_each add_entry (road_entries g) empty_index = (x', true) /\
    forall k id p, ix_find k id x' = Some p <-> ix_find k id empty_index = Some p \/ In (k, id, p) (road_entries g)).
  { intro N. apply each_entries. split; [exact N|]. intros; apply Z. }
  assert (J : snd (act_each add_entry (road_entries g) empty_index) = true -> NoDup (map fst (road_entries g))).
  { intro T. destruct (act_each add_entry (road_entries g) empty_index) as [x ok] eqn:E. simpl in T; subst ok.
    apply each_entries_ok in E. tauto. }
  split; [split; [exact J|]|].
  - intro N. destruct (K N) as (x' & -> & _). reflexivity.
  - intro T. destruct (K (J T)) as (x' & -> & H). intros. simpl. rewrite H, Z. intuition discriminate.
Qed.

Lemma not_moved_kind k k' x y : (kind_eqb k' k && Nat.eqb y x) = true <-> k' = k /\ y = x.
Proof. destruct k, k'; simpl; rewrite ?Nat.eqb_eq; intuition congruence. Qed.

Lemma moved_take k p k' q s : moved (set_moved k p s) k' q = true <-> moved s k' q = true \/ (k' = k /\ q = p).
Proof. simpl. destruct (kind_eqb k' k && (q =? p)) eqn:E; [apply not_moved_kind in E|]; intuition; subst. rewrite Nat.eqb_refl in E. destruct k; discriminate. Qed.

(** ** Containers *)
Section Hier.
Variables lane_id seg_id jun_id bp_id : nat -> nat.
Hypothesis Hl : injective lane_id.
Hypothesis Hs : injective seg_id.
Hypothesis Hj : injective jun_id.
Hypothesis Hb : injective bp_id.

Definition id_of (k : kind) : nat -> nat :=
  match k with KJun => jun_id | KSeg => seg_id | KLane => lane_id | KBp => bp_id end.
Definition contained (s : state) (k : kind) (p : nat) : Prop :=
  match k with
  | KLane => exists x, lane_seg s p = Some x /\ seg_cb s x = true
  | KSeg => seg_cb s p = true
  | KJun => jun_rg s p = true
  | KBp => bp_rg s p = true
  end.

Record Inv (s : state) : Prop := mk_Inv {
  i_lane : forall x i l, nth_error (seg_lanes s x) i = Some l <-> lane_seg s l = Some x /\ lane_idx s l = Some i;
  i_lane_none : forall l, lane_seg s l = None <-> lane_idx s l = None;
  i_lane_moved : forall l, moved s KLane l = true <-> lane_seg s l <> None;
  i_seg : forall j x, In x (jun_segs s j) <-> seg_jun s x = Some j;
  i_seg_nd : forall j, NoDup (jun_segs s j);
  i_seg_moved : forall x, moved s KSeg x = true <-> seg_jun s x <> None;
  i_jun : forall j, In j (rg_juns s) <-> jun_rg s j = true;
  i_jun_nd : NoDup (rg_juns s);
  i_jun_moved : forall j, moved s KJun j = jun_rg s j;
  i_jun_cb : forall j, jun_cb s j = jun_rg s j;
  i_bp : forall b, In b (rg_bps s) <-> bp_rg s b = true;
  i_bp_nd : NoDup (rg_bps s);
  i_bp_moved : forall b, moved s KBp b = bp_rg s b;
  i_cb : forall x, seg_cb s x = true <-> exists j, seg_jun s x = Some j /\ jun_rg s j = true;
  i_ids : forall k id p, ix_find k id (ids s) = Some p <-> contained s k p /\ id_of k p = id
}.

Lemma init_Inv : Inv init_state.
Proof.
  constructor; simpl; intros; try reflexivity; try (intuition congruence); try (constructor; fail).
  - destruct i; simpl; intuition discriminate.
  - split; [discriminate|]. intros (j & H & _); discriminate.
  - destruct k; simpl; (split; [discriminate|]); intros [A B]; try discriminate. destruct A as (x & A & _); discriminate.
Qed.

(** Indexing a list of lanes/segments. *)
Lemma index_add_each k (es : list entry) s :
  (forall e, In e es -> fst (fst e) = k) ->
  act_each (fun e : entry => index_add (fst (fst e)) (snd (fst e)) (snd e)) es s =
  (set_ids (fst (act_each add_entry es (ids s))) s, snd (act_each add_entry es (ids s))).
Proof.
  intros _. revert s. induction es as [|e es IH]; intro s.
  - destruct s; reflexivity.
  - cbn [act_each]. unfold act_seq. unfold index_add at 1, add_entry at 1 3.
    destruct (ix_add (fst (fst e)) (snd (fst e)) (snd e) (ids s)) as [x [|]]; [|reflexivity].
    rewrite IH. destruct s; reflexivity.
Qed.

Lemma index_lanes ls s : NoDup ls -> (forall l, In l ls -> ix_find KLane (lane_id l) (ids s) = None) ->
  exists x, act_each (fun l => index_add KLane (lane_id l) l) ls s = (set_ids x s, true) /\
   forall k id p, ix_find k id x = Some p <-> ix_find k id (ids s) = Some p \/ (k = KLane /\ In p ls /\ lane_id p = id).
Proof.
  intros N F.
  pose proof (act_each_map (fun e : entry => index_add (fst (fst e)) (snd (fst e)) (snd e)) (fun l => (KLane, lane_id l, l) : entry) ls s) as M.
  cbn [fst snd] in M. rewrite <- M. rewrite (index_add_each KLane).
  2:{ intros e I. apply in_map_iff in I. destruct I as (l & <- & _). reflexivity. }
  destruct (each_entries (map (fun l => (KLane, lane_id l, l) : entry) ls) (ids s)) as (x & E & H).
  - split.
    + rewrite map_map; simpl. clear -N Hl. induction N; simpl; constructor; auto. intro I. apply in_map_iff in I.
      destruct I as (y & E & I). inversion E. apply Hl in H1. subst; auto.
    + intros e I. apply in_map_iff in I. destruct I as (l & <- & I). apply F; exact I.
  - rewrite E. exists x. split; [reflexivity|]. intros k id p. rewrite H. rewrite in_map_iff. split.
    + intros [A|(l & A & B)]; auto. inversion A; subst. auto.
    + intros [A|(A & B & C)]; auto. subst. right. exists p. auto.
Qed.

Lemma lanes_nodup s x : Inv s -> NoDup (seg_lanes s x).
Proof.
  intro I. apply NoDup_nth_error. intros i j L E.
  destruct (nth_error (seg_lanes s x) i) as [l|] eqn:A.
  - symmetry in E. apply (i_lane s I) in A, E. destruct A, E. congruence.
  - apply nth_error_None in A. lia.
Qed.

Lemma index_one k id p s : ix_find k id (ids s) = None ->
  exists x, index_add k id p s = (set_ids x s, true) /\
   forall k' id' p', ix_find k' id' x = Some p' <-> ix_find k' id' (ids s) = Some p' \/ (k' = k /\ id' = id /\ p' = p).
Proof.
  intro F. unfold index_add. destruct (ix_add_spec k id p (ids s)) as [(N & x & -> & G)|((q & Q) & _)]; [|congruence].
  exists x. split; [reflexivity|]. intros. rewrite G. destruct (same_kind k' k && Nat.eqb id' id) eqn:E.
  - apply andb_true_iff in E. destruct E as [E1 E2]. apply same_kind_ok in E1. apply Nat.eqb_eq in E2. subst. rewrite F.
    split; [intro A; inversion A; auto|]. intros [A|(A & B & C)]; [discriminate|congruence].
  - split; auto. intros [A|(A & B & C)]; auto. subst. rewrite Nat.eqb_refl in E. destruct k; discriminate.
Qed.

(** [SetLaneIndexingCallback] on a segment whose lanes are not indexed. *)
Lemma set_cb_spec x s : seg_cb s x = false -> NoDup (seg_lanes s x) ->
  (forall l, In l (seg_lanes s x) -> ix_find KLane (lane_id l) (ids s) = None) ->
  exists X, SetLaneIndexingCallback lane_id x s = (set_ids X (set_seg_cb x s), true) /\
   forall k id p, ix_find k id X = Some p <-> ix_find k id (ids s) = Some p \/ (k = KLane /\ In p (seg_lanes s x) /\ lane_id p = id).
Proof.
  intros C N F. unfold SetLaneIndexingCallback, act_seq, act_check, act_do. rewrite C. cbn [negb].
  destruct (index_lanes (seg_lanes s x) (set_seg_cb x s) N F) as (X & E & H).
  exists X. split; [exact E|exact H].
Qed.

(** The loop of Junction::AttachToRoadGeometry. *)
Definition attach_loop ss := act_each (fun x => index_add KSeg (seg_id x) x ;; SetLaneIndexingCallback lane_id x) ss.

Lemma attach_loop_spec ss : forall s, NoDup ss -> (forall x, In x ss -> seg_cb s x = false) ->
  (forall x, In x ss -> NoDup (seg_lanes s x)) ->
  (forall x, In x ss -> ix_find KSeg (seg_id x) (ids s) = None) ->
  (forall x l, In x ss -> In l (seg_lanes s x) -> ix_find KLane (lane_id l) (ids s) = None) ->
  (forall x y l, In x ss -> In y ss -> In l (seg_lanes s x) -> In l (seg_lanes s y) -> x = y) ->
  exists cb X, attach_loop ss s =
    (mk_state (lane_seg s) (lane_idx s) (seg_lanes s) (seg_jun s) cb (jun_segs s)
       (jun_rg s) (jun_cb s) (rg_juns s) (rg_bps s) (bp_rg s) X (moved s), true) /\
    (forall y, cb y = true <-> seg_cb s y = true \/ In y ss) /\
    (forall k id p, ix_find k id X = Some p <-> ix_find k id (ids s) = Some p \/
       (k = KSeg /\ In p ss /\ seg_id p = id) \/ (k = KLane /\ (exists x, In x ss /\ In p (seg_lanes s x)) /\ lane_id p = id)).
Proof.
  unfold attach_loop. induction ss as [|x ss IH]; intros s N C NL FS FL D.
  - exists (seg_cb s), (ids s). split; [destruct s; reflexivity|]. simpl. split; [tauto|]. intros. split; auto.
    intros [A|[(_ & [] & _)|(_ & (x & [] & _) & _)]]; auto.
  - inversion N as [|? ? N1 N2]; subst. cbn [act_each].
    unfold act_seq at 1 2.
    destruct (index_one KSeg (seg_id x) x s) as (X1 & E1 & H1). { apply FS; left; reflexivity. }
    rewrite E1.
    destruct (set_cb_spec x (set_ids X1 s)) as (X2 & E2 & H2).
    { apply (C x). left; reflexivity. }
    { apply (NL x). left; reflexivity. }
    { intros l L. cbn. destruct (ix_find KLane (lane_id l) X1) eqn:Z; auto. apply H1 in Z. destruct Z as [Z|(Z & _)]; [|discriminate].
      rewrite (FL x l) in Z; [discriminate|left; reflexivity|exact L]. }
    rewrite E2. cbn in H2.
    set (s2 := set_ids X2 (set_seg_cb x (set_ids X1 s))).
    destruct (IH s2) as (cb & X & E & HC & HX).
    + exact N2.
    + intros y Y. cbn. rewrite upd_neq; [apply C; right; exact Y|congruence].
    + intros y Y. apply (NL y). right; exact Y.
    + intros y Y. cbn. destruct (ix_find KSeg (seg_id y) X2) eqn:Z; auto. apply H2 in Z. destruct Z as [Z|(Z & _)]; [|discriminate].
      apply H1 in Z. destruct Z as [Z|(_ & Z & Z')].
      * rewrite (FS y) in Z; [discriminate|right; exact Y].
      * apply Hs in Z. subst. contradiction.
    + intros y l Y L. cbn in L |- *. destruct (ix_find KLane (lane_id l) X2) eqn:Z; auto. apply H2 in Z. destruct Z as [Z|(_ & Z & Z')].
      * apply H1 in Z. destruct Z as [Z|(Z & _)]; [|discriminate]. rewrite (FL y l) in Z; [discriminate|right; exact Y|exact L].
      * apply Hl in Z'. subst n. assert (x = y) by (eapply D; eauto; simpl; auto). congruence.
    + intros y z l Y Z. cbn. apply D; right; assumption.
    + exists cb, X. split; [exact E|]. split.
      * intro y. rewrite HC. cbn. unfold upd. destruct (Nat.eqb_spec y x); subst; intuition congruence.
      * intros k id p. rewrite HX. cbn. rewrite H2, H1. split.
        -- intros [[[A|A]|A]|[A|A]].
           ++ left; exact A.
           ++ right; left. destruct A as (A & B & C'); subst. auto.
           ++ right; right. destruct A as (A & B & C'). split; auto. split; auto. exists x. auto.
           ++ right; left. destruct A as (A & B & C'). auto.
           ++ right; right. destruct A as (A & (y & B & B') & C'). split; auto. split; auto. exists y. auto.
        -- intros [A|[(A & [B|B] & C')|(A & (y & [B|B] & B') & C')]].
           ++ left; left; left; exact A.
           ++ left; left; right. subst; auto.
           ++ right; left; auto.
           ++ left; right. subst; auto.
           ++ right; right. split; auto. split; auto. exists y; auto.
Qed.

Lemma find_fresh s k p : Inv s -> ~ contained s k p -> ix_find k (id_of k p) (ids s) = None.
Proof.
  intros I N. destruct (ix_find k (id_of k p) (ids s)) as [q|] eqn:E; auto.
  apply (i_ids s I) in E. destruct E as [E E']. exfalso. apply N.
  assert (q = p); [|subst; exact E]. destruct k; simpl in E'; [apply Hj|apply Hs|apply Hl|apply Hb]; exact E'.
Qed.

Lemma nth_error_snoc {A} (l : list A) a i b : nth_error (l ++ [a]) i = Some b <-> nth_error l i = Some b \/ (i = length l /\ b = a).
Proof.
  destruct (lt_eq_lt_dec i (length l)) as [[L|L]|L].
  - rewrite nth_error_app1; auto. split; auto. intros [H|[H _]]; auto. lia.
  - subst i. rewrite nth_error_app2, Nat.sub_diag; auto. simpl. assert (nth_error l (length l) = None) by (apply nth_error_None; auto).
    rewrite H. split; [intro K; inversion K; auto|intros [K|[_ K]]; congruence].
  - assert (nth_error (l ++ [a]) i = None) by (apply nth_error_None; rewrite app_length; simpl; lia).
    assert (nth_error l i = None) by (apply nth_error_None; lia). rewrite H, H0. split; [discriminate|intros [K|[K _]]; [discriminate|lia]].
Qed.

Lemma NoDup_snoc {A} (l : list A) a : NoDup l -> ~ In a l -> NoDup (l ++ [a]).
Proof. intros. rewrite <- (rev_involutive (l ++ [a])). apply NoDup_rev. rewrite rev_app_distr. simpl. constructor; [rewrite <- in_rev; auto|apply NoDup_rev; auto]. Qed.

Lemma AddLane_ok x l s : Inv s -> moved s KLane l = false ->
  exists s', AddLane lane_id x l s = (s', true) /\ Inv s'.
Proof.
  intros I M. assert (L0 : lane_seg s l = None).
  { destruct (lane_seg s l) eqn:E; auto. assert (moved s KLane l = true) by (apply (i_lane_moved s I); congruence). congruence. }
  assert (L1 : lane_idx s l = None) by (apply (i_lane_none s I); exact L0).
  unfold AddLane, take, AttachToSegment, act_seq, act_check, act_do, act_when. rewrite M; cbn. rewrite L0, L1. cbn.
  rewrite upd_eq, app_length. cbn. replace (length (seg_lanes s x) + 1 - 1) with (length (seg_lanes s x)) by lia.
  set (s1 := set_lane l (Some x) (Some (length (seg_lanes s x))) (set_seg_lanes x (seg_lanes s x ++ [l]) (set_moved KLane l s))).
  assert (G : forall X, (forall k id p, ix_find k id X = Some p <-> contained s1 k p /\ id_of k p = id) -> Inv (set_ids X s1)).
  { intros X HX. destruct I as [a b c d e f g h i j m n o q r]. constructor; cbn; auto.
    - intros x' i' l'. unfold upd at 1 2 3. destruct (Nat.eqb_spec x' x) as [->|Nx].
      + rewrite nth_error_snoc. destruct (Nat.eqb_spec l' l) as [->|Nl].
        * split.
          -- intros [K|[-> _]]; [|auto]. apply a in K. destruct K; congruence.
          -- intros [_ K]. inversion K. auto.
        * rewrite a. split; [intros [K|[_ K]]; [exact K|congruence]|auto].
      + destruct (Nat.eqb_spec l' l) as [->|Nl]; [|apply a]. rewrite a. split; [intros [K _]; congruence|]. intros [K _]; congruence.
    - intro l'. unfold upd. destruct (Nat.eqb_spec l' l); [split; discriminate|apply b].
    - intro l'. unfold upd. destruct (Nat.eqb_spec l' l); [subst; split; [discriminate|reflexivity]|apply c]. }
  assert (SB : seg_cb s1 x = seg_cb s x) by reflexivity.
  destruct (seg_cb s x) eqn:CB.
  - destruct (index_one KLane (lane_id l) l s1) as (X & E & H).
    { apply (find_fresh s KLane l I). simpl. intros (y & Y & _). congruence. }
    rewrite E. eexists. split; [reflexivity|]. apply G. intros k id p. rewrite H.
    change (ids s1) with (ids s). rewrite (i_ids s I). destruct k; cbn; try (intuition discriminate).
    unfold upd. destruct (Nat.eqb_spec p l) as [->|Np].
    + split; [intros [[(y & Y & _) _]|(_ & -> & _)]; [congruence|eauto]|]. intros [_ <-]. auto.
    + intuition congruence.
  - exists s1. split; [reflexivity|]. assert (s1 = set_ids (ids s) s1) by reflexivity. rewrite H. apply G.
    intros k id p. rewrite (i_ids s I). destruct k; cbn; try tauto.
    unfold upd. destruct (Nat.eqb_spec p l) as [->|Np]; [|tauto].
    split; [intros [(y & Y & _) _]; congruence|]. intros [(y & Y & Y') _]. inversion Y; subst. congruence.
Qed.

Lemma AddSegment_ok j x s : Inv s -> moved s KSeg x = false ->
  exists s', AddSegment lane_id seg_id j x s = (s', true) /\ Inv s'.
Proof.
  intros I M. assert (J0 : seg_jun s x = None).
  { destruct (seg_jun s x) eqn:E; auto. assert (moved s KSeg x = true) by (apply (i_seg_moved s I); congruence). congruence. }
  assert (CB : seg_cb s x = false).
  { destruct (seg_cb s x) eqn:E; auto. apply (i_cb s I) in E. destruct E as (j' & E & _). congruence. }
  unfold AddSegment, take, AttachToJunction.
  set (s1 := set_seg_jun x (Some j) (set_jun_segs j (jun_segs s j ++ [x]) (set_moved KSeg x s))).
  assert (St : forall rest, ((act_check (fun s => negb (moved s KSeg x)) ;; act_do (set_moved KSeg x)) ;;
      act_do (fun s => set_jun_segs j (jun_segs s j ++ [x]) s) ;;
      (act_check (fun s => match seg_jun s x with None => true | _ => false end) ;; act_do (set_seg_jun x (Some j))) ;; rest) s = rest s1).
  { intro rest. unfold act_seq, act_check, act_do. rewrite M; cbn. rewrite J0. reflexivity. }
  rewrite St; clear St.
  assert (G : forall cb X, (forall y, cb y = true <-> exists k, seg_jun s1 y = Some k /\ jun_rg s1 k = true) ->
     (forall k id p, ix_find k id X = Some p <->
        (match k with KLane => exists y, lane_seg s p = Some y /\ cb y = true | KSeg => cb p = true | _ => contained s k p end) /\ id_of k p = id) ->
     Inv (mk_state (lane_seg s1) (lane_idx s1) (seg_lanes s1) (seg_jun s1) cb (jun_segs s1)
       (jun_rg s1) (jun_cb s1) (rg_juns s1) (rg_bps s1) (bp_rg s1) X (moved s1))).
  { intros cb X HC HX. destruct I as [a b c d e f g h i jj m n o q r]. constructor; cbn; auto.
    - intros j' x'. unfold upd. destruct (Nat.eqb_spec j' j) as [->|Nj]; destruct (Nat.eqb_spec x' x) as [->|Nx].
      + rewrite in_app_iff. simpl. intuition.
      + rewrite in_app_iff, d. simpl. intuition congruence.
      + rewrite d. split; intro K; congruence.
      + apply d.
    - intro j'. unfold upd. destruct (Nat.eqb_spec j' j) as [->|Nj]; [|apply e]. apply NoDup_snoc; [apply e|]. rewrite d. congruence.
    - intro x'. unfold upd. destruct (Nat.eqb_spec x' x) as [->|Nx]; [split; [discriminate|reflexivity]|apply f].
    - intros k id p. rewrite HX. destruct k; cbn; tauto. }
  unfold act_seq at 1. unfold act_when at 1. change (jun_cb s1 j) with (jun_cb s j).
  rewrite (i_jun_cb s I). destruct (jun_rg s j) eqn:RG.
  - destruct (index_one KSeg (seg_id x) x s1) as (X1 & E1 & H1).
    { apply (find_fresh s KSeg x I). simpl. congruence. }
    rewrite E1. unfold act_when. change (jun_cb (set_ids X1 s1) j) with (jun_cb s j). rewrite (i_jun_cb s I), RG.
    destruct (set_cb_spec x (set_ids X1 s1)) as (X2 & E2 & H2).
    { exact CB. } { apply (lanes_nodup s x I). }
    { intros l L. cbn. destruct (ix_find KLane (lane_id l) X1) eqn:Z; auto. apply H1 in Z. destruct Z as [Z|(Z & _)]; [|discriminate].
      change (ids s1) with (ids s) in Z. apply (i_ids s I) in Z. destruct Z as [(y & Y & Y') Z']. cbn in Z'. apply Hl in Z'; subst n.
      change (seg_lanes (set_ids X1 s1) x) with (seg_lanes s x) in L. apply In_nth_error in L. destruct L as (i & L). apply (i_lane s I) in L. destruct L; congruence. }
    rewrite E2. eexists. split; [reflexivity|]. apply (G (upd (seg_cb s) x true) X2).
    + intro y. cbn. unfold upd. destruct (Nat.eqb_spec y x) as [->|Ny]; [|apply (i_cb s I)]. split; auto. intros _. eauto.
    + intros k id p. rewrite H2. change (ids (set_ids X1 s1)) with X1. rewrite H1. change (ids s1) with (ids s). rewrite (i_ids s I).
      change (seg_lanes (set_ids X1 s1) x) with (seg_lanes s x).
      destruct k; cbn; try (intuition discriminate).
      * unfold upd. destruct (Nat.eqb_spec p x) as [->|Np].
        -- split; [intros [[[_ K]|(_ & K & _)]|(K & _)]; [auto|auto|discriminate]|]. intros [_ K]. left; right. auto.
        -- split; [intros [[K|(_ & _ & K)]|(K & _)]; [exact K|congruence|discriminate]|]. auto.
      * split.
        -- intros [[[(y & Y & Y') K]|(K & _)]|(_ & L & K)]; [|discriminate|].
           ++ split; auto. exists y. split; auto. unfold upd. destruct (Nat.eqb_spec y x); auto.
           ++ split; auto. exists x. rewrite upd_eq. split; auto. apply In_nth_error in L. destruct L as (i & L). apply (i_lane s I) in L. tauto.
        -- intros [(y & Y & Y') K]. unfold upd in Y'. destruct (Nat.eqb_spec y x) as [->|Ny].
           ++ right. split; auto. split; auto. destruct (lane_idx s p) as [i|] eqn:Ei.
              ** apply nth_error_In with i. apply (i_lane s I). auto.
              ** apply (i_lane_none s I) in Ei. congruence.
           ++ left; left. split; eauto.
  - exists s1. split; [unfold act_when; change (jun_cb s1 j) with (jun_cb s j); rewrite (i_jun_cb s I), RG; reflexivity|].
    apply (G (seg_cb s) (ids s)).
    + intro y. cbn. unfold upd. destruct (Nat.eqb_spec y x) as [->|Ny]; [|apply (i_cb s I)]. rewrite CB. split; [discriminate|].
      intros (k & K & K'). inversion K; subst. congruence.
    + intros k id p. rewrite (i_ids s I). destruct k; tauto.
Qed.

Lemma AddJunction_ok j s : Inv s -> moved s KJun j = false ->
  exists s', AddJunction lane_id seg_id jun_id j s = (s', true) /\ Inv s'.
Proof.
  intros I M. assert (RG : jun_rg s j = false) by (rewrite <- (i_jun_moved s I); exact M).
  assert (JCB : jun_cb s j = false) by (rewrite (i_jun_cb s I); exact RG).
  unfold AddJunction, take, AttachToRoadGeometry.
  set (s1 := set_jun_cb j (set_jun_rg j (set_rg_juns (rg_juns s ++ [j]) (set_moved KJun j s)))).
  assert (St : forall rest, ((act_check (fun s => negb (moved s KJun j)) ;; act_do (set_moved KJun j)) ;;
      act_do (fun s => set_rg_juns (rg_juns s ++ [j]) s) ;;
      (act_check (fun s => negb (jun_rg s j)) ;; act_check (fun s => negb (jun_cb s j)) ;;
       act_do (set_jun_rg j) ;; act_do (set_jun_cb j) ;;
       (fun s => act_each (fun seg => index_add KSeg (seg_id seg) seg ;; SetLaneIndexingCallback lane_id seg) (jun_segs s j) s)) ;; rest) s
      = (attach_loop (jun_segs s j) ;; rest) s1).
  { intro rest. unfold act_seq, act_check, act_do. rewrite M; cbn. rewrite RG; cbn. rewrite JCB; cbn. reflexivity. }
  rewrite St; clear St.
  assert (SJ : forall x, In x (jun_segs s j) -> seg_jun s x = Some j) by (intros x; apply (i_seg s I)).
  assert (SC : forall x, In x (jun_segs s j) -> seg_cb s x = false).
  { intros x X. destruct (seg_cb s x) eqn:E; auto. apply (i_cb s I) in E. destruct E as (j' & E & E'). apply SJ in X. congruence. }
  assert (LS : forall x l, In l (seg_lanes s x) <-> lane_seg s l = Some x).
  { intros x l. split; intro H.
    - apply In_nth_error in H. destruct H as (i & H). apply (i_lane s I) in H. tauto.
    - destruct (lane_idx s l) as [i|] eqn:Ei; [apply nth_error_In with i; apply (i_lane s I); auto|]. apply (i_lane_none s I) in Ei. congruence. }
  destruct (attach_loop_spec (jun_segs s j) s1) as (cb & X & E & HC & HX).
  { apply (i_seg_nd s I). }
  { exact SC. }
  { intros x _. apply (lanes_nodup s x I). }
  { intros x Y. apply (find_fresh s KSeg x I). simpl. rewrite SC; auto; discriminate. }
  { intros x l Y L. apply (find_fresh s KLane l I). simpl. intros (y & Z & Z'). apply LS in L. rewrite L in Z. inversion Z; subst. rewrite SC in Z'; auto; discriminate. }
  { intros x y l _ _ Lx Ly. apply LS in Lx, Ly. congruence. }
  unfold act_seq at 1. rewrite E. cbv iota beta.
  match goal with |- context [index_add KJun (jun_id j) j ?st] => set (s2 := st) end.
  destruct (index_one KJun (jun_id j) j s2) as (X2 & E2 & H2).
  { cbn. destruct (ix_find KJun (jun_id j) X) eqn:Z; auto. apply HX in Z. destruct Z as [Z|[(Z & _)|(Z & _)]]; try discriminate.
    pose proof (find_fresh s KJun j I) as F. simpl in F. change (ids s1) with (ids s) in Z. rewrite F in Z; [discriminate|congruence]. }
  rewrite E2. eexists. split; [reflexivity|].
  destruct I as [a b c d e f g h i jj m n o q r]. constructor; cbn; auto.
  - intro j'. rewrite in_app_iff, g. simpl. unfold upd. destruct (Nat.eqb_spec j' j); intuition congruence.
  - apply NoDup_snoc; auto. rewrite g. congruence.
  - intro j'. unfold upd. destruct (Nat.eqb_spec j' j) as [->|]; [reflexivity|apply i].
  - intro j'. unfold upd. destruct (Nat.eqb_spec j' j) as [->|]; [reflexivity|apply jj].
  - intro x. rewrite HC. cbn. rewrite q. rewrite d. unfold upd. split.
    + intros [(k & K & K')|K]; [exists k|exists j]; (split; auto); [destruct (Nat.eqb_spec k j); auto|rewrite Nat.eqb_refl; reflexivity].
    + intros (k & K & K'). destruct (Nat.eqb_spec k j) as [->|]; [right; exact K|left; eauto].
  - intros k id p. rewrite H2. change (ids s2) with X. rewrite HX. change (ids s1) with (ids s). change (seg_lanes s1) with (seg_lanes s). rewrite r.
    destruct k; cbn.
    + unfold upd. destruct (Nat.eqb_spec p j) as [->|Np]; split.
      * intros [[K|[(K & _)|(K & _)]]|(_ & K & _)]; try discriminate; [tauto|auto].
      * intros [_ K]. right; auto.
      * intros [[K|[(K & _)|(K & _)]]|(_ & _ & K)]; try discriminate; [tauto|congruence].
      * intro K. left; left; exact K.
    + rewrite HC. cbn. split.
      * intros [[[K K']|[(_ & K & K')|(K & _)]]|(K & _)]; try discriminate; auto.
      * intros [[K|K] K']; left; auto.
    + split.
      * intros [[[(y & Y & Y') K']|[(K & _)|(_ & (y & Y & Y') & K)]]|(K & _)]; try discriminate.
        -- split; auto. exists y. split; auto. apply HC. auto.
        -- split; auto. exists y. split; [apply LS; exact Y'|]. apply HC. auto.
      * intros [(y & Y & Y') K]. apply HC in Y'. destruct Y' as [Y'|Y']; left; [left; eauto|right; right].
        split; auto. split; auto. exists y. split; auto. apply LS; exact Y.
    + intuition discriminate.
Qed.

Lemma AddBranchPoint_ok b s : Inv s -> moved s KBp b = false ->
  exists s', AddBranchPoint bp_id b s = (s', true) /\ Inv s'.
Proof.
  intros I M. assert (RG : bp_rg s b = false) by (rewrite <- (i_bp_moved s I); exact M).
  unfold AddBranchPoint, take.
  set (s1 := set_bp_rg b (set_rg_bps (rg_bps s ++ [b]) (set_moved KBp b s))).
  assert (St : forall rest, ((act_check (fun s => negb (moved s KBp b)) ;; act_do (set_moved KBp b)) ;;
      act_do (fun s => set_rg_bps (rg_bps s ++ [b]) s) ;; act_check (fun s => negb (bp_rg s b)) ;; act_do (set_bp_rg b) ;; rest) s = rest s1).
  { intro rest. unfold act_seq, act_check, act_do. rewrite M; cbn. rewrite RG; cbn. reflexivity. }
  rewrite St; clear St.
  destruct (index_one KBp (bp_id b) b s1) as (X & E & H).
  { apply (find_fresh s KBp b I). simpl. congruence. }
  rewrite E. eexists. split; [reflexivity|].
  destruct I as [a b0 c d e f g h i jj m n o q r]. constructor; cbn; auto.
  - intro b'. rewrite in_app_iff, m. simpl. unfold upd. destruct (Nat.eqb_spec b' b); intuition congruence.
  - apply NoDup_snoc; auto. rewrite m. congruence.
  - intro b'. unfold upd. destruct (Nat.eqb_spec b' b) as [->|]; [reflexivity|apply o].
  - intros k id p. rewrite H. change (ids s1) with (ids s). rewrite r. destruct k; cbn; try (intuition discriminate).
    unfold upd. destruct (Nat.eqb_spec p b) as [->|Np]; intuition congruence.
Qed.

Notation step := (step lane_id seg_id jun_id bp_id).

Lemma step_spec o s : Inv s -> let (k, p) := op_arg o in
  (moved s k p = true -> step o s = (s, false)) /\
  (moved s k p = false -> exists s', step o s = (s', true) /\ Inv s').
Proof.
  intro I. destruct o as [x l|j x|j|b]; simpl; split; intro M.
  - unfold AddLane, take, act_seq, act_check. rewrite M. reflexivity.
  - apply AddLane_ok; auto.
  - unfold AddSegment, take, act_seq, act_check. rewrite M. reflexivity.
  - apply AddSegment_ok; auto.
  - unfold AddJunction, take, act_seq, act_check. rewrite M. reflexivity.
  - apply AddJunction_ok; auto.
  - unfold AddBranchPoint, take, act_seq, act_check. rewrite M. reflexivity.
  - apply AddBranchPoint_ok; auto.
Qed.

Lemma run_Inv h : Inv (act_run step h init_state).
Proof.
  apply act_run_inv; [|apply init_Inv]. intros o s I. pose proof (step_spec o s I) as S.
  destruct (op_arg o) as [k p]. destruct S as [S1 S2]. destruct (moved s k p).
  - rewrite S1; auto.
  - destruct S2 as (s' & E & I'); auto. rewrite E. exact I'.
Qed.

Lemma Inv_consistent s : Inv s -> hierarchy_consistent s.
Proof. intros []. unfold hierarchy_consistent. auto 10. Qed.

Lemma Inv_index s : Inv s -> index_exact lane_id seg_id jun_id bp_id s.
Proof.
  intro I. unfold index_exact, rg_has_lane, rg_has_segment, rg_has_junction.
  assert (LS : forall x l, In l (seg_lanes s x) <-> lane_seg s l = Some x).
  { intros x l. split; intro H.
    - apply In_nth_error in H. destruct H as (i & H). apply (i_lane s I) in H. tauto.
    - destruct (lane_idx s l) as [i|] eqn:Ei; [apply nth_error_In with i; apply (i_lane s I); auto|]. apply (i_lane_none s I) in Ei. congruence. }
  repeat split; intros; try (apply (i_ids s I) in H; simpl in H).
  - destruct H as [(x & A & B) C]. apply (i_cb s I) in B. destruct B as (j & B & B').
    exists j, x. rewrite LS, (i_jun s I), (i_seg s I). auto.
  - tauto.
  - destruct H as [(j & x & A & B & C) D]. apply (i_ids s I). simpl. split; auto. exists x. rewrite <- LS. split; auto.
    apply (i_cb s I). exists j. rewrite <- (i_seg s I), <- (i_jun s I). auto.
  - destruct H as [A B]. apply (i_cb s I) in A. destruct A as (j & A & A'). exists j. rewrite (i_jun s I), (i_seg s I). auto.
  - tauto.
  - destruct H as [(j & A & B) C]. apply (i_ids s I). simpl. split; auto. apply (i_cb s I). exists j. rewrite <- (i_seg s I), <- (i_jun s I). auto.
  - apply (i_jun s I). tauto.
  - tauto.
  - apply (i_ids s I). simpl. rewrite <- (i_jun s I). auto.
  - apply (i_bp s I). tauto.
  - tauto.
  - apply (i_ids s I). simpl. rewrite <- (i_bp s I). auto.
Qed.

Lemma left_right s l l' : Inv s -> lane_seg s l <> None -> lane_seg s l' <> None ->
  (to_left s l = Ok (Some l') <-> to_right s l' = Ok (Some l)).
Proof.
  intros I A B. unfold to_left, to_right, lane_at.
  destruct (lane_seg s l) as [x|] eqn:Sl; [|congruence]. destruct (lane_seg s l') as [x'|] eqn:Sl'; [|congruence].
  destruct (lane_idx s l) as [i|] eqn:Il. 2:{ apply (i_lane_none s I) in Il; congruence. }
  destruct (lane_idx s l') as [i'|] eqn:Il'. 2:{ apply (i_lane_none s I) in Il'; congruence. }
  assert (N : nth_error (seg_lanes s x) i = Some l) by (apply (i_lane s I); auto).
  assert (N' : nth_error (seg_lanes s x') i' = Some l') by (apply (i_lane s I); auto).
  split; intro H.
  - destruct (S i =? length (seg_lanes s x)) eqn:E; [discriminate|]. destruct (nth_error (seg_lanes s x) (S i)) as [l2|] eqn:E2; [|discriminate].
    inversion H; subst l2. apply (i_lane s I) in E2. destruct E2 as [E2 E3]. assert (x' = x) by congruence. assert (i' = S i) by congruence. subst.
    rewrite N. reflexivity.
  - destruct i' as [|i']; [discriminate|]. destruct (nth_error (seg_lanes s x') i') as [l2|] eqn:E2; [|discriminate].
    inversion H; subst l2. apply (i_lane s I) in E2. destruct E2 as [E2 E3]. assert (x' = x) by congruence. assert (i' = i) by congruence. subst.
    assert (S i < length (seg_lanes s x)) by (apply nth_error_Some; congruence).
    destruct (Nat.eqb_spec (S i) (length (seg_lanes s x))); [lia|]. rewrite N'. reflexivity.
Qed.

Lemma left_total s l : Inv s -> lane_seg s l <> None ->
  (exists m, to_left s l = Ok m) /\ (exists m, to_right s l = Ok m) /\ to_left s l <> Ok (Some l) /\
  (to_left s l = Ok None <-> exists x, lane_seg s l = Some x /\ lane_idx s l = Some (length (seg_lanes s x) - 1)) /\
  (to_right s l = Ok None <-> lane_idx s l = Some 0).
Proof.
  intros I A. unfold to_left, to_right, lane_at.
  destruct (lane_seg s l) as [x|] eqn:Sl; [|congruence].
  destruct (lane_idx s l) as [i|] eqn:Il. 2:{ apply (i_lane_none s I) in Il; congruence. }
  assert (N : nth_error (seg_lanes s x) i = Some l) by (apply (i_lane s I); auto).
  assert (Li : i < length (seg_lanes s x)) by (apply nth_error_Some; congruence).
  split; [|split; [|split; [|split]]].
  - destruct (Nat.eqb_spec (S i) (length (seg_lanes s x))); [eauto|].
    destruct (nth_error (seg_lanes s x) (S i)) eqn:E; [eauto|]. apply nth_error_None in E. lia.
  - destruct i; [eauto|]. destruct (nth_error (seg_lanes s x) i) eqn:E; [eauto|]. apply nth_error_None in E. lia.
  - destruct (Nat.eqb_spec (S i) (length (seg_lanes s x))); [discriminate|].
    destruct (nth_error (seg_lanes s x) (S i)) eqn:E; [|discriminate]. intro H; inversion H; subst. apply (i_lane s I) in E. destruct E as [_ E].
    rewrite Il in E. inversion E. lia.
  - destruct (Nat.eqb_spec (S i) (length (seg_lanes s x))).
    + split; auto. intros _. exists x. split; auto. f_equal. lia.
    + destruct (nth_error (seg_lanes s x) (S i)) eqn:E; (split; [discriminate|intros (x' & X & X')]); inversion X; subst; inversion X'; lia.
  - destruct i; [tauto|]. destruct (nth_error (seg_lanes s x) i); split; discriminate.
Qed.
End Hier.

(** ** Branch points *)
Lemma le_eqb_ok a b : le_eqb a b = true <-> a = b.
Proof.
  destruct a as [a1 a2], b as [b1 b2]. unfold le_eqb; simpl. rewrite andb_true_iff, Nat.eqb_eq, Bool.eqb_true_iff.
  split; [intros [-> ->]; reflexivity|intro H; inversion H; auto].
Qed.

Record BInv (b : branch_point) : Prop := mk_BInv {
  b_in : forall e sd, mfind le_eqb e (confluent b) = Some sd <-> In e (side_of b sd);
  b_on : forall e, mfind le_eqb e (ongoing b) = option_map negb (mfind le_eqb e (confluent b));
  b_nd : NoDup (a_side b ++ b_side b);
  b_def : forall e d, mfind le_eqb e (defaults b) = Some d ->
    exists sd, mfind le_eqb e (ongoing b) = Some sd /\ mfind le_eqb d (confluent b) = Some sd
}.

Lemma BInv_empty : BInv empty_bp.
Proof. constructor; simpl; intros; try discriminate; try reflexivity; [|constructor]. destruct sd; simpl; split; [discriminate|tauto|discriminate|tauto]. Qed.

Definition added (side : bool) (e : lane_end) (b : branch_point) : branch_point :=
  set_ongoing e (negb side) (set_confluent e side (side_add side e b)).

Lemma BInv_added side e b : BInv b -> mfind le_eqb e (confluent b) = None -> BInv (added side e b).
Proof.
  intros I N. assert (NI : ~ In e (a_side b ++ b_side b)).
  { rewrite in_app_iff. intros [H|H].
    - change (a_side b) with (side_of b true) in H. apply (b_in b I) in H. congruence.
    - change (b_side b) with (side_of b false) in H. apply (b_in b I) in H. congruence. }
  assert (Sd : forall sd, side_of (added side e b) sd = if Bool.eqb sd side then side_of b sd ++ [e] else side_of b sd)
   by (intros []; destruct side; reflexivity).
  assert (Cf : confluent (added side e b) = mset le_eqb e side (confluent b)) by (destruct side; reflexivity).
  assert (Og : ongoing (added side e b) = mset le_eqb e (negb side) (ongoing b)) by (destruct side; reflexivity).
  assert (Df : defaults (added side e b) = defaults b) by (destruct side; reflexivity).
  constructor.
  - intros x sd. rewrite Cf, Sd. destruct (le_eqb x e) eqn:E.
    + apply le_eqb_ok in E; subst x. rewrite mfind_set_eq; [|exact le_eqb_ok]. destruct (Bool.eqb sd side) eqn:Q.
      * apply Bool.eqb_prop in Q; subst. rewrite in_app_iff. simpl. split; auto.
      * split; [intro H; inversion H; subst; rewrite Bool.eqb_reflx in Q; discriminate|]. intro H. exfalso. apply NI. rewrite in_app_iff. destruct sd; auto.
    + assert (x <> e) by (intro; subst; rewrite (proj2 (le_eqb_ok e e) eq_refl) in E; discriminate).
      rewrite mfind_set_neq; [|exact le_eqb_ok|congruence]. rewrite (b_in b I). destruct (Bool.eqb sd side); [|tauto].
      rewrite in_app_iff. simpl. split; [auto|]. intros [K|[K|[]]]; [auto|congruence].
  - intro x. rewrite Cf, Og. destruct (le_eqb x e) eqn:E.
    + apply le_eqb_ok in E; subst x. rewrite !mfind_set_eq; try exact le_eqb_ok. reflexivity.
    + assert (x <> e) by (intro; subst; rewrite (proj2 (le_eqb_ok e e) eq_refl) in E; discriminate).
      rewrite !mfind_set_neq; try exact le_eqb_ok; try congruence. apply (b_on b I).
  - change (a_side (added side e b)) with (side_of (added side e b) true). change (b_side (added side e b)) with (side_of (added side e b) false).
    rewrite !Sd. simpl. destruct side; simpl.
    + rewrite <- app_assoc. simpl. pose proof (NoDup_Add (a:=e)) as A. apply (A (a_side b ++ b_side b)); [apply Add_app|]. split; [apply (b_nd b I)|exact NI].
    + rewrite app_assoc. apply NoDup_snoc; [apply (b_nd b I)|exact NI].
  - intros x d. rewrite Cf, Og, Df. intro H. apply (b_def b I) in H. destruct H as (sd & A & B). exists sd.
    assert (x <> e). { intro; subst. rewrite (b_on b I), N in A. discriminate. }
    assert (d <> e) by (intro; subst; congruence).
    rewrite !mfind_set_neq; try exact le_eqb_ok; try congruence. auto.
Qed.

Definition BState (s : bstate) : Prop :=
  (forall p, BInv (bps s p)) /\
  (forall e p, lane_bp s e = Some p -> mfind le_eqb e (confluent (bps s p)) <> None) /\
  (forall e p, mfind le_eqb e (confluent (bps s p)) <> None -> lane_bp s e <> None).

Lemma AddBranch_eq p l w side s : BState s ->
  AddBranch p (Some l) w side s =
  if mhas le_eqb (l, w) (confluent (bps s p)) then (s, false) else
  let s1 := mk_bstate (upd (bps s) p (added side (l, w) (bps s p))) (lane_bp s) in
  match lane_bp s (l, w) with
  | None => (set_lane_bp (l, w) p (mk_bstate (upd (upd (upd (bps s) p (side_add side (l, w) (bps s p))) p (set_confluent (l, w) side (side_add side (l, w) (bps s p)))) p
        (added side (l, w) (bps s p))) (lane_bp s)), true)
  | Some _ => (mk_bstate (upd (upd (upd (bps s) p (side_add side (l, w) (bps s p))) p (set_confluent (l, w) side (side_add side (l, w) (bps s p)))) p
        (added side (l, w) (bps s p))) (lane_bp s), false)
  end.
Proof.
  intros [I _]. unfold AddBranch, act_seq, act_check, act_do. destruct (mhas le_eqb (l, w) (confluent (bps s p))) eqn:H; [reflexivity|]. cbn [negb].
  assert (mhas le_eqb (l, w) (ongoing (bps s p)) = false).
  { apply mhas_false. apply mhas_false in H. rewrite (b_on _ (I p)), H. reflexivity. }
  rewrite H0. cbn. rewrite !upd_eq. destruct (lane_bp s (l, w)); reflexivity.
Qed.

Lemma bstep_BState o s : BState s -> BState (fst (bstep o s)).
Proof.
  intro St. destruct o as [p [l|] w side|p e d]; unfold bstep; [| exact St |].
  - rewrite AddBranch_eq; auto. destruct St as (I & A & B). destruct (mhas le_eqb (l, w) (confluent (bps s p))) eqn:H; [split; auto|].
    apply mhas_false in H. cbv zeta.
    assert (G : forall q, upd (upd (upd (bps s) p (side_add side (l, w) (bps s p))) p (set_confluent (l, w) side (side_add side (l, w) (bps s p)))) p (added side (l, w) (bps s p)) q
      = upd (bps s) p (added side (l, w) (bps s p)) q).
    { intro q. unfold upd. destruct (q =? p); reflexivity. }
    assert (Cf : confluent (added side (l, w) (bps s p)) = mset le_eqb (l, w) side (confluent (bps s p))) by (destruct side; reflexivity).
    assert (I' : forall q, BInv (upd (bps s) p (added side (l, w) (bps s p)) q)).
    { intro q. unfold upd. destruct (q =? p); [apply BInv_added; auto|auto]. }
    assert (Mono : forall q e, mfind le_eqb e (confluent (bps s q)) <> None -> mfind le_eqb e (confluent (upd (bps s) p (added side (l, w) (bps s p)) q)) <> None).
    { intros q e. unfold upd. destruct (Nat.eqb_spec q p) as [->|]; auto. rewrite Cf. destruct (le_eqb e (l, w)) eqn:E.
      - apply le_eqb_ok in E; subst. rewrite mfind_set_eq; [discriminate|exact le_eqb_ok].
      - rewrite mfind_set_neq; [auto|exact le_eqb_ok|]. intro; subst. rewrite (proj2 (le_eqb_ok _ _) eq_refl) in E. discriminate. }
    assert (Inv' : forall q e, mfind le_eqb e (confluent (upd (bps s) p (added side (l, w) (bps s p)) q)) <> None ->
       mfind le_eqb e (confluent (bps s q)) <> None \/ (q = p /\ e = (l, w))).
    { intros q e. unfold upd. destruct (Nat.eqb_spec q p) as [->|]; auto. rewrite Cf. destruct (le_eqb e (l, w)) eqn:E.
      - apply le_eqb_ok in E; subst. auto.
      - rewrite mfind_set_neq; [auto|exact le_eqb_ok|]. intro; subst. rewrite (proj2 (le_eqb_ok _ _) eq_refl) in E. discriminate. }
    destruct (lane_bp s (l, w)) as [q0|] eqn:E0; cbn [fst]; unfold BState; simpl.
    + split; [intro q; rewrite G; auto|]. split.
      * intros e q K. rewrite G. apply Mono, A, K.
      * intros e q. rewrite G. intro K. apply Inv' in K. destruct K as [K|[-> ->]]; [eapply B; eauto|congruence].
    + split; [intro q; rewrite G; auto|]. split.
      * intros e q. rewrite G. destruct (le_eqb e (l, w)) eqn:E.
        -- apply le_eqb_ok in E; subst. intro K; inversion K; subst. rewrite upd_eq, Cf, mfind_set_eq; [discriminate|exact le_eqb_ok].
        -- intro K. apply Mono, A, K.
      * intros e q. rewrite G. intro K. destruct (le_eqb e (l, w)) eqn:E; [discriminate|].
        apply Inv' in K. destruct K as [K|[_ ->]]; [eapply B; eauto|]. rewrite (proj2 (le_eqb_ok _ _) eq_refl) in E. discriminate.
  - destruct St as (I & A & B). unfold SetDefault, act_seq, act_check, act_do.
    destruct (mhas le_eqb e (ongoing (bps s p))) eqn:H1; [|split; auto].
    destruct (mhas le_eqb d (confluent (bps s p))) eqn:H2; [|split; auto].
    destruct (mfind le_eqb d (confluent (bps s p))) as [x|] eqn:F1; [|split; auto].
    destruct (mfind le_eqb e (ongoing (bps s p))) as [y|] eqn:F2; [|split; auto].
    destruct (Bool.eqb x y) eqn:Exy; [|split; auto]. apply Bool.eqb_prop in Exy; subst y. cbn [fst].
    assert (Cf : forall q, confluent (upd (bps s) p (set_default e d (bps s p)) q) = confluent (bps s q)).
    { intro q. unfold upd. destruct (Nat.eqb_spec q p); subst; reflexivity. }
    unfold BState; simpl. split; [|split; intros e0 q; rewrite Cf; [apply A|apply B]].
    intro q. unfold upd. destruct (Nat.eqb_spec q p) as [->|]; [|apply I]. destruct (I p) as [b1 b2 b3 b4]. constructor; simpl; auto.
    intros e0 d0. destruct (le_eqb e0 e) eqn:E.
    + apply le_eqb_ok in E; subst. rewrite mfind_set_eq; [|exact le_eqb_ok]. intro K; inversion K; subst. exists x. auto.
    + rewrite mfind_set_neq; [auto|exact le_eqb_ok|]. intro; subst. rewrite (proj2 (le_eqb_ok _ _) eq_refl) in E. discriminate.
Qed.

Lemma run_BState h : BState (act_run bstep h init_bstate).
Proof.
  apply act_run_inv; [intros; apply bstep_BState; auto|]. split; [intro; apply BInv_empty|]. split; simpl; [discriminate|tauto].
Qed.

Lemma BInv_consistent b : BInv b -> branch_consistent b.
Proof.
  intro I. unfold branch_consistent, GetConfluentBranches, GetOngoingBranches, GetDefaultBranch.
  split; [apply (b_nd b I)|]. split; [|split; [|split]].
  - intros e H. change (a_side b) with (side_of b true) in H. apply (b_in b I) in H. rewrite (b_on b I), H. auto.
  - intros e H. change (b_side b) with (side_of b false) in H. apply (b_in b I) in H. rewrite (b_on b I), H. auto.
  - intros e H. rewrite in_app_iff in H. destruct (mfind le_eqb e (confluent b)) as [sd|] eqn:E.
    + exfalso. apply H. apply (b_in b I) in E. destruct sd; auto.
    + rewrite (b_on b I), E. simpl. split; auto. split; auto. destruct (mfind le_eqb e (defaults b)) eqn:D; auto.
      apply (b_def b I) in D. destruct D as (sd & D & _). rewrite (b_on b I), E in D. discriminate.
  - intros e d D. apply (b_def b I) in D. destruct D as (sd & A & B). rewrite (b_on b I) in A.
    destruct (mfind le_eqb e (confluent b)) as [se|] eqn:E; [|discriminate]. inversion A; subst sd. apply (b_in b I) in E, B. destruct se; auto.
Qed.

Lemma branch_back_any h e p : let s := act_run bstep h init_bstate in
  (lane_bp s e = Some p -> In e (a_side (bps s p) ++ b_side (bps s p))) /\
  (In e (a_side (bps s p) ++ b_side (bps s p)) -> lane_bp s e <> None).
Proof.
  intro s. destruct (run_BState h) as (I & A & B). fold s in I, A, B. split.
  - intro K. apply A in K. destruct (mfind le_eqb e (confluent (bps s p))) as [sd|] eqn:E; [|congruence].
    apply (b_in _ (I p)) in E. rewrite in_app_iff. destruct sd; auto.
  - intro K. apply (B e p). rewrite in_app_iff in K. destruct K as [K|K].
    + change (a_side (bps s p)) with (side_of (bps s p) true) in K. apply (b_in _ (I p)) in K. congruence.
    + change (b_side (bps s p)) with (side_of (bps s p) false) in K. apply (b_in _ (I p)) in K. congruence.
Qed.

(** without failures, lane ends point back to their branch point *)
Lemma branch_back_ok h : forall s, BState s ->
  (forall e p, mfind le_eqb e (confluent (bps s p)) <> None -> lane_bp s e = Some p) ->
  all_succeed h s ->
  forall e p, mfind le_eqb e (confluent (bps (act_run bstep h s) p)) <> None -> lane_bp (act_run bstep h s) e = Some p.
Proof.
  induction h as [|o h IH]; intros s St Bk All; [exact Bk|]. cbn [all_succeed act_run] in All |- *. destruct All as [Ok1 All].
  apply IH; auto; [apply bstep_BState; auto|]. clear IH All.
  destruct o as [p [l|] w side|p e d]; [|discriminate Ok1|].
  - change (bstep (OAddBranch p (Some l) w side) s) with (AddBranch p (Some l) w side s) in *. rewrite AddBranch_eq in Ok1 by auto. rewrite AddBranch_eq by auto. destruct (mhas le_eqb (l, w) (confluent (bps s p))) eqn:H; [discriminate|].
    cbv zeta in *. destruct (lane_bp s (l, w)) eqn:E0; [discriminate|]. cbn [fst]. simpl. intros e q.
    assert (Cf : confluent (added side (l, w) (bps s p)) = mset le_eqb (l, w) side (confluent (bps s p))) by (destruct side; reflexivity).
    unfold upd. destruct (Nat.eqb_spec q p) as [->|Nq].
    + rewrite Cf. destruct (le_eqb e (l, w)) eqn:E; [auto|]. rewrite mfind_set_neq; [apply Bk|exact le_eqb_ok|].
      intro; subst. rewrite (proj2 (le_eqb_ok _ _) eq_refl) in E. discriminate.
    + intro K. apply Bk in K. destruct (le_eqb e (l, w)) eqn:E; [apply le_eqb_ok in E; subst; congruence|exact K].
  - cbn [bstep] in *. unfold SetDefault, act_seq, act_check, act_do in *.
    destruct (mhas le_eqb e (ongoing (bps s p))); [|discriminate].
    destruct (mhas le_eqb d (confluent (bps s p))); [|discriminate].
    destruct (match mfind le_eqb d (confluent (bps s p)) with Some a => _ | None => _ end); [|discriminate]. cbn [fst].
    intros e0 q. simpl. unfold upd. destruct (Nat.eqb_spec q p) as [->|]; simpl; apply Bk.
Qed.

Lemma branch_back_success h : all_succeed h init_bstate ->
  let s := act_run bstep h init_bstate in
  forall e p, In e (a_side (bps s p) ++ b_side (bps s p)) -> lane_bp s e = Some p.
Proof.
  intros All s e p K. apply branch_back_ok; auto.
  - split; [intro; apply BInv_empty|]. split; simpl; [discriminate|tauto].
  - simpl. intros e' p' H. tauto.
  - destruct (run_BState h) as (I & _). fold s in I. rewrite in_app_iff in K. destruct K as [K|K].
    + change (a_side (bps s p)) with (side_of (bps s p) true) in K. apply (b_in _ (I p)) in K. fold s. congruence.
    + change (b_side (bps s p)) with (side_of (bps s p) false) in K. apply (b_in _ (I p)) in K. fold s. congruence.
Qed.

(** when the calls throw *)
Lemma add_branch_ok_iff h p l w side : let s := act_run bstep h init_bstate in
  snd (AddBranch p l w side s) = true <->
  exists x, l = Some x /\ ~ In (x, w) (a_side (bps s p) ++ b_side (bps s p)) /\ lane_bp s (x, w) = None.
Proof.
  intro s. pose proof (run_BState h) as St. fold s in St. destruct l as [l|]; [|split; [discriminate|intros (x & H & _); discriminate]].
  rewrite AddBranch_eq; auto. destruct St as (I & _ & B).
  assert (X : mhas le_eqb (l, w) (confluent (bps s p)) = true <-> In (l, w) (a_side (bps s p) ++ b_side (bps s p))).
  { rewrite mhas_true, in_app_iff. split.
    - intros [sd H]. apply (b_in _ (I p)) in H. destruct sd; auto.
    - intros [H|H]; [exists true|exists false]; apply (b_in _ (I p)); exact H. }
  destruct (mhas le_eqb (l, w) (confluent (bps s p))) eqn:H.
  - split; [discriminate|]. intros (x & E & N & _). inversion E; subst. exfalso. apply N, X, eq_refl.
  - cbv zeta. destruct (lane_bp s (l, w)) eqn:E0; split; try discriminate.
    + intros (x & E & _ & K). inversion E; subst. congruence.
    + intros _. exists l. split; auto. split; auto. intro K. apply X in K. discriminate.
    + reflexivity.
Qed.

Lemma set_default_ok_iff h p e d : let s := act_run bstep h init_bstate in
  snd (SetDefault p e d s) = true <->
  (In e (a_side (bps s p)) /\ In d (b_side (bps s p))) \/ (In e (b_side (bps s p)) /\ In d (a_side (bps s p))).
Proof.
  intro s. destruct (run_BState h) as (I & _). fold s in I. specialize (I p).
  unfold SetDefault, act_seq, act_check, act_do.
  assert (A : forall e, In e (a_side (bps s p)) <-> mfind le_eqb e (confluent (bps s p)) = Some true).
  { intro. rewrite (b_in _ I). reflexivity. }
  assert (B : forall e, In e (b_side (bps s p)) <-> mfind le_eqb e (confluent (bps s p)) = Some false).
  { intro. rewrite (b_in _ I). reflexivity. }
  rewrite !A, !B. unfold mhas. rewrite (b_on _ I). destruct (mfind le_eqb e (confluent (bps s p))) as [[]|]; simpl;
  destruct (mfind le_eqb d (confluent (bps s p))) as [[]|]; simpl; intuition discriminate.
Qed.

Lemma branch_partial_update : exists h e p,
  let s := act_run bstep h init_bstate in
  In e (a_side (bps s p) ++ b_side (bps s p)) /\ lane_bp s e <> Some p.
Proof.
  exists [OAddBranch 0 (Some 7) true true; OAddBranch 1 (Some 7) true false], (7, true), 1. simpl. split; [auto|discriminate].
Qed.

Lemma duplicate_partial : exists lane_id h,
  let s := act_run (step lane_id (fun x => x) (fun x => x) (fun x => x)) h init_state in
  exists j, rg_has_junction s j /\ ix_find KJun j (ids s) = None.
Proof.
  (* lanes 1 and 2 share the id 0 *)
  exists (fun _ => 0), [OAddLane 10 1; OAddLane 11 2; OAddSegment 20 10; OAddSegment 21 11; OAddJunction 20; OAddJunction 21].
  vm_compute. exists 21. split; [auto|reflexivity].
Qed.

Section Hier2.
Variables lane_id seg_id jun_id bp_id : nat -> nat.
Notation step := (step lane_id seg_id jun_id bp_id).

(** [moved] changes only in [take] *)
Definition keeps (m : state -> Prop) (a : action state) : Prop := forall s, m s -> m (fst (a s)).
Definition same_moved (s0 : state) (s : state) : Prop := moved s = moved s0.
Lemma keep_seq s0 a b : keeps (same_moved s0) a -> keeps (same_moved s0) b -> keeps (same_moved s0) (a ;; b).
Proof. intros A B s H. unfold act_seq. pose proof (A s H). destruct (a s) as [s' [|]]; simpl in *; auto. Qed.
Lemma keep_check s0 c : keeps (same_moved s0) (act_check c).
Proof. intros s H. exact H. Qed.
Lemma keep_when s0 c a : keeps (same_moved s0) a -> keeps (same_moved s0) (act_when c a).
Proof. intros A s H. unfold act_when. destruct (c s); auto. Qed.
Lemma keep_each {A} s0 (f : A -> action state) l : (forall a, keeps (same_moved s0) (f a)) -> keeps (same_moved s0) (act_each f l).
Proof. intro F. induction l; simpl; [intros s H; exact H|apply keep_seq; auto]. Qed.
Lemma keep_index s0 k id p : keeps (same_moved s0) (index_add k id p).
Proof. intros s H. unfold index_add. destruct (ix_add k id p (ids s)). exact H. Qed.
Lemma keep_cb s0 x : keeps (same_moved s0) (SetLaneIndexingCallback lane_id x).
Proof.
  unfold SetLaneIndexingCallback. apply keep_seq; [apply keep_check|]. apply keep_seq; [intros s H; exact H|].
  intros s H. apply (keep_each s0 (fun l => index_add KLane (lane_id l) l) (seg_lanes s x)); auto. intro; apply keep_index.
Qed.

Lemma take_eq k p s : take k p s = if moved s k p then (s, false) else (set_moved k p s, true).
Proof. unfold take, act_seq, act_check, act_do. destruct (moved s k p); reflexivity. Qed.

Lemma step_moved o s : forall k p, moved (fst (step o s)) k p = true <-> moved s k p = true \/ (k, p) = op_arg o.
Proof.
  assert (T : forall k0 p0 rest, (forall s0, keeps (same_moved s0) rest) ->
    forall k p, moved (fst ((take k0 p0 ;; rest) s)) k p = true <-> moved s k p = true \/ (k, p) = (k0, p0)).
  { intros k0 p0 rest R k p. unfold act_seq. rewrite take_eq. destruct (moved s k0 p0) eqn:M.
    - simpl. split; auto. intros [H|H]; auto. inversion H; subst; auto.
    - rewrite (R (set_moved k0 p0 s) (set_moved k0 p0 s) eq_refl). rewrite moved_take. split; intros [H|H]; auto; [destruct H; subst; auto|inversion H; auto]. }
  destruct o as [x l|j x|j|b]; simpl; apply T; intro s0.
  - apply keep_seq; [intros s1 H; exact H|]. apply keep_seq; [|apply keep_when, keep_index].
    intros s1 H. unfold AttachToSegment, act_seq, act_check, act_do. destruct (lane_seg s1 l); [exact H|]. destruct (lane_idx s1 l); exact H.
  - apply keep_seq; [intros s1 H; exact H|]. apply keep_seq; [|apply keep_seq; apply keep_when; [apply keep_index|apply keep_cb]].
    unfold AttachToJunction. apply keep_seq; [apply keep_check|intros s1 H; exact H].
  - apply keep_seq; [intros s1 H; exact H|]. apply keep_seq; [|apply keep_index]. unfold AttachToRoadGeometry.
    repeat (apply keep_seq; [intros s1 H; exact H|]).
    intros s1 H. apply (keep_each s0 (fun seg => index_add KSeg (seg_id seg) seg ;; SetLaneIndexingCallback lane_id seg)); auto.
    intro a. apply keep_seq; [apply keep_index|apply keep_cb].
  - repeat (apply keep_seq; [intros s1 H; exact H|]). apply keep_index.
Qed.

Lemma moved_iff h k p : moved (act_run step h init_state) k p = true <-> In (k, p) (map op_arg h).
Proof.
  induction h as [|o h IH] using rev_ind; [simpl; split; [discriminate|tauto]|].
  rewrite act_run_app. cbn [act_run]. rewrite step_moved, IH, map_app, in_app_iff. simpl. intuition.
Qed.
Hypothesis Hl : injective lane_id.
Hypothesis Hs : injective seg_id.
Hypothesis Hj : injective jun_id.
Hypothesis Hb : injective bp_id.
Lemma add_succeeds h o : let s := act_run step h init_state in
  (moved s (fst (op_arg o)) (snd (op_arg o)) = true -> step o s = (s, false)) /\
  (moved s (fst (op_arg o)) (snd (op_arg o)) = false -> snd (step o s) = true).
Proof.
  intro s. pose proof (run_Inv lane_id seg_id jun_id bp_id Hl Hs Hj Hb h) as I. fold s in I.
  pose proof (step_spec lane_id seg_id jun_id bp_id Hl Hs Hj Hb o s I) as S. destruct (op_arg o) as [k p]. simpl. destruct S as [S1 S2].
  split; auto. intro M. destruct (S2 M) as (s' & E & _). rewrite E. reflexivity.
Qed.

End Hier2.

Lemma add_branch_effect h p x w side : let s := act_run bstep h init_bstate in
  snd (AddBranch p (Some x) w side s) = true ->
  let s' := fst (AddBranch p (Some x) w side s) in
  a_side (bps s' p) = a_side (bps s p) ++ (if side then [(x, w)] else []) /\
  b_side (bps s' p) = b_side (bps s p) ++ (if side then [] else [(x, w)]) /\
  lane_bp s' (x, w) = Some p /\
  (forall e, e <> (x, w) -> lane_bp s' e = lane_bp s e) /\ (forall q, q <> p -> bps s' q = bps s q) /\
  (forall e, GetDefaultBranch (bps s' p) e = GetDefaultBranch (bps s p) e).
Proof.
  intro s. pose proof (run_BState h) as St. fold s in St. rewrite AddBranch_eq; auto.
  destruct (mhas le_eqb (x, w) (confluent (bps s p))); [discriminate|]. cbv zeta.
  destruct (lane_bp s (x, w)) eqn:E0; [discriminate|]. intros _. cbn [fst]. simpl. rewrite upd_eq.
  split; [destruct side; simpl; rewrite ?app_nil_r; reflexivity|].
  split; [destruct side; simpl; rewrite ?app_nil_r; reflexivity|].
  split; [rewrite (proj2 (le_eqb_ok _ _) eq_refl); reflexivity|].
  split; [intros e N; destruct (le_eqb e (x, w)) eqn:E; [apply le_eqb_ok in E; congruence|reflexivity]|].
  split; [intros q N; rewrite !upd_neq; auto|]. intro; destruct side; reflexivity.
Qed.

Lemma set_default_effect h p e d : let s := act_run bstep h init_bstate in
  snd (SetDefault p e d s) = true ->
  let s' := fst (SetDefault p e d s) in
  a_side (bps s' p) = a_side (bps s p) /\ b_side (bps s' p) = b_side (bps s p) /\ lane_bp s' = lane_bp s /\
  GetDefaultBranch (bps s' p) e = Some d /\ (forall e', e' <> e -> GetDefaultBranch (bps s' p) e' = GetDefaultBranch (bps s p) e').
Proof.
  intro s. unfold SetDefault, act_seq, act_check, act_do.
  destruct (mhas le_eqb e (ongoing (bps s p))); [|discriminate].
  destruct (mhas le_eqb d (confluent (bps s p))); [|discriminate].
  destruct (match mfind le_eqb d (confluent (bps s p)) with Some a => _ | None => _ end); [|discriminate]. cbn [fst]. intros _. simpl.
  rewrite upd_eq. unfold GetDefaultBranch. simpl. split; [reflexivity|]. split; [reflexivity|]. split; [reflexivity|]. split.
  - apply mfind_set_eq. exact le_eqb_ok.
  - intros. apply mfind_set_neq; [exact le_eqb_ok|congruence].
Qed.
