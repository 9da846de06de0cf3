(** C35, C36: the routing graph and its edge sequences. *)
From Coq Require Import List Arith Bool Lia Permutation Sorted.
From Verif Require Import Base Maps Hierarchy_Proofs Graph_Model Graph_Spec Graph_Proofs.
Import ListNotations.

Definition any_order (ord : list (nat * node) -> list (nat * node)) : Prop := forall l, Permutation (ord l) l.

(** ** C35 *)
(** BuildGraph returns exactly when the lanes of every segment have different branch
    points at each end, whatever the hash order; otherwise it throws. *)
Theorem build_graph_returns ord ss : any_order ord -> NoDup (map sg_id ss) ->
  (BuildGraph ord ss = Throw <-> exists s, In s ss /\ ~ separate_lanes s) /\
  ((forall s, In s ss -> separate_lanes s) -> exists g, BuildGraph ord ss = Ok g).
Proof.
  intros O N. unfold BuildGraph.
  destruct (add_segments_inv ord O ss [] (mk_graph [] []) 0 binv_init N) as [(S & g & n & -> & _)|(S & ->)]; cbn [omap].
  - split; [|eauto]. split; [discriminate|]. intros (s & Hs & X). destruct (X (S s Hs)).
  - split; [tauto|]. intro H. destruct S as (s & Hs & X). destruct (X (H s Hs)).
Qed.
Print Assumptions build_graph_returns.

Lemma build_inv ord ss g : any_order ord -> NoDup (map sg_id ss) -> BuildGraph ord ss = Ok g -> exists n, binv ss g n /\
   add_segments ord ss (mk_graph [] [], 0) = Ok (g, n).
Proof.
  intros O N E. unfold BuildGraph in E.
  destruct (add_segments_inv ord O ss [] (mk_graph [] []) 0 binv_init N) as [(_ & g' & n & E' & I)|(_ & E')]; rewrite E' in E; inversion E; subst.
  exists n. auto.
Qed.

Lemma edge_in_find g e n ss : binv ss g n -> (edge_in g e <-> efind g (e_id e) = Some e).
Proof. intro I. split; [apply (mfind_nodup Nat.eqb nat_eqb_ok); apply I|apply (mfind_in Nat.eqb nat_eqb_ok)]. Qed.
Lemma node_in_nfind g x n ss : binv ss g n -> (node_in g x <-> nfind g (n_id x) = Some x).
Proof. intro I. split; [apply (mfind_nodup Nat.eqb nat_eqb_ok); apply I|apply (mfind_in Nat.eqb nat_eqb_ok)]. Qed.

(** One edge per segment; its ends are nodes of the graph; a node lists exactly the
    edges that end in it. *)
Theorem build_graph_incidence ord ss g : any_order ord -> NoDup (map sg_id ss) -> BuildGraph ord ss = Ok g ->
  incidence g /\
  (forall s, In s ss -> exists e, edge_in g e /\ e_seg e = s /\ e_id e = sg_id s) /\
  (forall e, edge_in g e -> In (e_seg e) ss /\ e_id e = sg_id (e_seg e)).
Proof.
  intros O N E. destruct (build_inv ord ss g O N E) as (n & I & _).
  assert (Kn : forall k x, In (k, x) (g_nodes g) -> n_id x = k).
  { intros k x H. apply (mfind_nodup Nat.eqb nat_eqb_ok) in H; [|apply I]. apply (bi_n _ _ _ I k x H). }
  assert (Ke : forall k x, In (k, x) (g_edges g) -> e_id x = k).
  { intros k x H. apply (mfind_nodup Nat.eqb nat_eqb_ok) in H; [|apply I]. apply (bi_e _ _ _ I k x H). }
  assert (Nn : forall k, nfind g k <> None -> exists x, node_in g x /\ n_id x = k).
  { intros k H. destruct (nfind g k) as [x|] eqn:F; [|congruence]. exists x. destruct (bi_n _ _ _ I k x F) as (X & _). split; auto.
    apply (node_in_nfind _ _ _ _ I). congruence. }
  split; [|split].
  - split; [split; [apply I|split; [apply I|auto]]|]. split; [|split].
    + intros e He. apply (edge_in_find _ _ _ _ I) in He. destruct (bi_ends _ _ _ I _ _ He) as [A B]. split; apply Nn; auto.
    + intros x Hx id. apply (node_in_nfind _ _ _ _ I) in Hx. rewrite (bi_inc _ _ _ I _ _ Hx id). split.
      * intros (e & He & T). exists e. destruct (bi_e _ _ _ I _ _ He) as (X & _). split; [|auto].
        apply (edge_in_find _ _ _ _ I). congruence.
      * intros (e & He & X & T). exists e. apply (edge_in_find _ _ _ _ I) in He. split; [congruence|exact T].
    + intros x Hx. apply (node_in_nfind _ _ _ _ I) in Hx. apply sorted_nodup. apply (bi_n _ _ _ I _ _ Hx).
  - intros s Hs. destruct (bi_d _ _ _ I s Hs) as (e & He & X). exists e. destruct (bi_e _ _ _ I _ _ He) as (Y & _). split; auto.
    apply (edge_in_find _ _ _ _ I). congruence.
  - intros e He. apply (edge_in_find _ _ _ _ I) in He. destruct (bi_e _ _ _ I _ _ He) as (_ & A & B). auto.
Qed.
Print Assumptions build_graph_incidence.

(** When hubs come first: the node at an edge's end holds all the branch points of
    its lanes there, and every branch point is in exactly one node.  Missing: other
    segment orders and loops, for which both are refuted below. *)
Theorem build_graph_nodes_partial ord ss g : any_order ord -> NoDup (map sg_id ss) -> hubs_first ss -> BuildGraph ord ss = Ok g ->
  (forall e n (w : bool), edge_in g e -> node_in g n -> n_id n = (if w then e_b e else e_a e) -> forall bp, at_end (e_seg e) w bp -> In bp (n_bps n)) /\
  (forall s w bp, In s ss -> at_end s w bp -> exists n, node_in g n /\ In bp (n_bps n) /\ forall m, node_in g m -> In bp (n_bps m) -> m = n) /\
  (forall n bp, node_in g n -> In bp (n_bps n) -> exists s w, In s ss /\ at_end s w bp).
Proof.
  intros O N H E. destruct (build_inv ord ss g O N E) as (k & I & A).
  pose proof (add_segments_hubs ord O ss [] (mk_graph [] []) 0 g k binv_init hinv_init N H A) as Hi. cbn [app] in Hi.
  split; [|split].
  - intros e n w He Hn X bp Hb. apply (edge_in_find _ _ _ _ I) in He. apply (node_in_nfind _ _ _ _ I) in Hn.
    destruct (hi_cover _ _ Hi _ _ He w) as (m & Hm & Hc). rewrite <- X, Hn in Hm. inversion Hm; subst m. auto.
  - intros s w bp Hs Hb. destruct (bi_d _ _ _ I s Hs) as (e & He & X). destruct (hi_cover _ _ Hi _ _ He w) as (n & Hn & Hc).
    rewrite X in Hc. destruct (bi_n _ _ _ I _ _ Hn) as (Y & _). exists n. split; [apply (node_in_nfind _ _ _ _ I); congruence|]. split; auto.
    intros m Hm Hbm. apply (node_in_nfind _ _ _ _ I) in Hm. pose proof (hi_disj _ _ Hi _ _ _ _ bp Hn Hm (Hc bp Hb) Hbm) as Z. congruence.
  - intros n bp Hn Hb. apply (node_in_nfind _ _ _ _ I) in Hn. destruct (bi_bps _ _ _ I _ _ Hn) as (s & w & Hs & Y). exists s, w. split; auto. apply Y; auto.
Qed.
Print Assumptions build_graph_nodes_partial.

(** Finding: a multi-lane segment met after a single-lane segment ending at one of its
    branch points is attached to that node, but its other branch points are dropped
    (GetNode updates a copy).  They then belong to no node, and FindNode on the lane
    finds nothing although the lane's segment is an edge of the graph. *)
Definition ss_merge : list segment := [mk_segment 1 [(10, 11)]; mk_segment 2 [(11, 20); (12, 21)]].
Theorem build_graph_merge_refuted :
  exists g e n, BuildGraph (fun l => l) ss_merge = Ok g /\ edge_in g e /\ e_seg e = mk_segment 2 [(11, 20); (12, 21)] /\
    node_in g n /\ n_id n = e_a e /\ at_end (e_seg e) false 12 /\ ~ In 12 (n_bps n) /\
    (forall m, node_in g m -> ~ In 12 (n_bps m)) /\ FindNodeAt (fun l => l) g 12 = None.
Proof.
  do 3 eexists. split; [reflexivity|]. split; [right; left; reflexivity|]. split; [reflexivity|]. split; [right; left; reflexivity|]. split; [reflexivity|].
  split; [exists (12, 21); cbn; auto|]. split; [cbn; intuition discriminate|]. split; [|reflexivity].
  intros m [H|[H|[H|[]]]]; inversion H; subst; cbn; intuition discriminate.
Qed.
Print Assumptions build_graph_merge_refuted.

(** Finding: a segment that starts and ends at one branch point gets two nodes for it. *)
Theorem build_graph_loop_refuted :
  exists g n m, BuildGraph (fun l => l) [mk_segment 1 [(10, 10)]] = Ok g /\ node_in g n /\ node_in g m /\ n_id n <> n_id m /\
    In 10 (n_bps n) /\ In 10 (n_bps m).
Proof.
  do 3 eexists. split; [reflexivity|]. split; [left; reflexivity|]. split; [right; left; reflexivity|]. cbn. auto.
Qed.
Print Assumptions build_graph_loop_refuted.

(** FindNode(lane, end): some node with the branch point, nothing only if there is none. *)
Theorem find_node_at ord g bp : any_order ord ->
  match FindNodeAt ord g bp with
  | Some n => In n (map snd (g_nodes g)) /\ In bp (n_bps n)
  | None => forall n, In n (map snd (g_nodes g)) -> ~ In bp (n_bps n)
  end.
Proof.
  intro O. unfold FindNodeAt. destruct (find _ (ord (g_nodes g))) as [[k n]|] eqn:F; cbn.
  - apply find_some in F. destruct F as [I E]. split; [|apply smem_in; exact E].
    apply (Permutation_in _ (O _)) in I. apply (in_map snd) in I. exact I.
  - intros n Hn Hb. apply in_map_iff in Hn. destruct Hn as (kn & <- & Hk).
    pose proof (find_none _ _ F kn (Permutation_in _ (Permutation_sym (O _)) Hk)) as X. cbn in X. apply smem_false in X. auto.
Qed.
Print Assumptions find_node_at.

(** ** C36 *)
(** The search terminates without throwing and returns each qualifying sequence once:
    every result is a simple path whose consecutive edges meet across a branch point,
    and every simple path whose consecutive edges meet across all the branch points
    they share is a result. *)
Theorem find_all_edge_sequences a_side g start goal : incidence g -> node_in g start -> node_in g goal ->
  exists l, FindAllEdgeSequences a_side g start goal = Ok l /\ NoDup l /\
    (forall es, In es l -> es <> [] /\ simple_path g (n_id start) es (n_id goal) /\
       consecutive (fun e f => exists bp, shared_bp e f bp /\ across a_side e f bp) es) /\
    (forall es, es <> [] -> simple_path g (n_id start) es (n_id goal) ->
       consecutive (fun e f => (exists bp, shared_bp e f bp) /\ forall bp, shared_bp e f bp -> across a_side e f bp) es -> In es l).
Proof.
  intros Inc Hs Hg. unfold FindAllEdgeSequences.
  assert (Hh : forall n, node_in g n -> mhas Nat.eqb (n_id n) (g_nodes g) = true).
  { intros n H. destruct Inc as ((_ & N & _) & _). unfold mhas. rewrite (mfind_nodup Nat.eqb nat_eqb_ok (n_id n) n _ N H). reflexivity. }
  rewrite (Hh start Hs), (Hh goal Hg). cbn [throw_unless].
  destruct (Nat.eqb_spec (n_id start) (n_id goal)) as [E|D].
  - exists []. split; auto. split; [constructor|]. split; [intros es []|]. intros es Ne (ns & W & N & Hd & La). exfalso.
    destruct es as [|e es]; [congruence|]. destruct ns as [|x ns]; [discriminate|]. inversion Hd; subst x.
    destruct (walk_cons_inv g _ _ _ _ W) as (y & ns' & -> & _). inversion N as [|? ? N1 N2]; subst. apply N1. rewrite E, <- La.
    change (last (n_id start :: y :: ns') (n_id start)) with (last (y :: ns') (n_id start)). apply last_in. discriminate.
  - destruct (sequences_spec g Inc (n_id goal) (S (length (g_nodes g))) start [n_id start] Hs (or_introl eq_refl)) as (l & El & Nl & Hl).
    + repeat constructor. intros [].
    + intros x [<-|[]]. apply node_key; auto.
    + cbn. lia.
    + rewrite El. cbn [obind].
      assert (R : forall p, In p l <-> p <> [] /\ simple_path g (n_id start) p (n_id goal)).
      { intro p. rewrite Hl. apply route_simple; auto. intro id. destruct Inc as (_ & _ & X & _). apply X; auto. }
      destruct (keep_drivable_spec a_side l) as (r & Er & Nr & Hr); auto.
      { intros es He. apply R in He. destruct He as [Ne (ns & W & N & _)]. destruct (drivable_spec g a_side es ns W N Ne) as (b & Eb & _). eauto. }
      exists r. split; auto. split; auto. split.
      * intros es He. apply Hr in He. destruct He as [He Dr]. apply R in He. destruct He as [Ne Sp]. split; auto. split; auto.
        destruct Sp as (ns & W & N & _). destruct (drivable_spec g a_side es ns W N Ne) as (b & Eb & B & _). apply B. congruence.
      * intros es Ne Sp C. apply Hr. split; [apply R; auto|]. destruct Sp as (ns & W & N & _).
        destruct (drivable_spec g a_side es ns W N Ne) as (b & Eb & _ & B). rewrite Eb. f_equal. auto.
Qed.
Print Assumptions find_all_edge_sequences.

(** Nothing for equal nodes, a throw for nodes that are not in the graph. *)
Theorem find_all_edge_sequences_degenerate a_side g start goal :
  (mhas Nat.eqb (n_id start) (g_nodes g) = false \/ mhas Nat.eqb (n_id goal) (g_nodes g) = false -> FindAllEdgeSequences a_side g start goal = Throw) /\
  (node_in g start -> FindAllEdgeSequences a_side g start start = Ok []).
Proof.
  unfold FindAllEdgeSequences. split.
  - intros [->|H]; [reflexivity|]. rewrite H. destruct (mhas Nat.eqb (n_id start) (g_nodes g)); reflexivity.
  - intro H. assert (X : mhas Nat.eqb (n_id start) (g_nodes g) = true).
    { apply (mhas_in Nat.eqb nat_eqb_ok). apply (in_map fst) in H. exact H. }
    rewrite X, Nat.eqb_refl. reflexivity.
Qed.
Print Assumptions find_all_edge_sequences_degenerate.

(** DetermineEdgeEnd gives the end at the node shared by consecutive edges of a path. *)
Theorem determine_edge_end g e f x y z : incidence g -> edge_in g e -> edge_in g f -> joins e x y -> joins f y z ->
  x <> y -> x <> z -> sg_id (e_seg e) <> sg_id (e_seg f) ->
  exists w : bool, DetermineEdgeEnd g e f = Ok (Some w) /\ (if w then e_b e else e_a e) = y.
Proof.
  intros Inc He Hf Je Jf D1 D2 Ds. unfold DetermineEdgeEnd. destruct (Nat.eqb_spec (sg_id (e_seg e)) (sg_id (e_seg f))) as [Xs|Xs]; [congruence|].
  destruct (edge_ends g Inc e He) as [(a & Ha & Ea) (b & Hb & Eb)].
  rewrite (inc_node_find g Inc a (e_a e) Ha Ea). cbn [obind].
  assert (T : forall n, node_in g n -> (smem (e_id f) (n_edges n) = true <-> n_id n = y \/ n_id n = z)).
  { intros n Hn. rewrite smem_in. destruct Inc as (K & B1 & B2 & B3). rewrite (B2 n Hn). split.
    - intros (f' & Hf' & X & T). assert (f' = f) by (apply (edge_unique g (conj K (conj B1 (conj B2 B3)))); auto). subst f'.
      unfold touches in T. destruct Jf as [[<- <-]|[<- <-]]; destruct T; auto.
    - intro X. exists f. split; auto. split; auto. unfold touches. destruct Jf as [[<- <-]|[<- <-]]; destruct X; auto. }
  destruct Je as [[A B]|[A B]].
  - destruct (smem (e_id f) (n_edges a)) eqn:M; [apply (T a Ha) in M; destruct M; congruence|].
    rewrite (inc_node_find g Inc b (e_b e) Hb Eb). cbn [obind].
    assert (X : smem (e_id f) (n_edges b) = true) by (apply (T b Hb); left; congruence). rewrite X. exists true. auto.
  - assert (X : smem (e_id f) (n_edges a) = true) by (apply (T a Ha); left; congruence). rewrite X. exists false. auto.
Qed.
Print Assumptions determine_edge_end.

(** A diamond: two segments in a row, and a third that runs the other way between the
    first and last node; plus a segment joining the middle on the same side. *)
Definition ss_ex : list segment :=
  [mk_segment 1 [(10, 11); (12, 13)]; mk_segment 2 [(11, 20); (13, 21)]; mk_segment 3 [(20, 10)]; mk_segment 4 [(30, 13)]].
Definition side_ex (bp : nat) : list nat :=
  match bp with 11 => [1] | 13 => [1; 4] | 20 => [2] | 21 => [2] | 10 => [1; 3] | _ => [] end.
Example graph_example : exists g s t,
  BuildGraph (fun l => l) ss_ex = Ok g /\ node_in g s /\ node_in g t /\ In 10 (n_bps s) /\ In 20 (n_bps t) /\
  (exists l, FindAllEdgeSequences side_ex g s t = Ok l /\ map (map e_id) l = [[1; 2]; [3]]).
Proof.
  eexists. exists (mk_node 0 [10; 12] [1; 3]), (mk_node 2 [20; 21] [2; 3]).
  split; [vm_compute; reflexivity|]. split; [left; reflexivity|]. split; [right; right; left; reflexivity|].
  split; [left; reflexivity|]. split; [left; reflexivity|]. eexists. split; [vm_compute; reflexivity|reflexivity].
Qed.
Example hubs_first_example : any_order (fun l => l) /\ NoDup (map sg_id ss_ex) /\ hubs_first ss_ex /\ forall s, In s ss_ex -> separate_lanes s.
Proof.
  split; [intro; apply Permutation_refl|]. split; [repeat constructor; cbn; intuition discriminate|]. split.
  - assert (C : forall s e bp, at_end s e bp <-> In bp (end_set s e)) by (intros; symmetry; apply end_set_in).
    assert (W : forall p s e, existsb (fun t => forallb (fun bp => smem bp (end_set t false)) (end_set s e) || forallb (fun bp => smem bp (end_set t true)) (end_set s e)) p = true -> within_end p (at_end s e)).
    { intros p s e H. apply existsb_exists in H. destruct H as (t & Ht & X). apply orb_true_iff in X.
      destruct X as [X|X]; rewrite forallb_forall in X; [exists t, false|exists t, true]; split; auto; intros bp Hb; apply C in Hb; apply X in Hb; apply smem_in in Hb; apply C; auto. }
    assert (D : forall p s e, forallb (fun t => forallb (fun bp => negb (smem bp (end_set t false)) && negb (smem bp (end_set t true))) (end_set s e)) p = true -> clear_of p (at_end s e)).
    { intros p s e H t te bp Ht Hb Hs. rewrite forallb_forall in H. specialize (H t Ht). rewrite forallb_forall in H. apply C in Hs. specialize (H bp Hs).
      apply andb_true_iff in H. destruct H as [H1 H2]. apply negb_true_iff in H1, H2. apply smem_false in H1, H2. apply C in Hb. destruct te; auto. }
    intros p s q E. unfold ss_ex in E.
    repeat (destruct p as [|? p]; [inversion E; subst; clear E; split;
      [intros [|]; first [left; apply W; reflexivity|right; apply D; reflexivity]
      |intros bp H1 H2; apply C in H1; apply C in H2; vm_compute in H1, H2; exfalso; intuition congruence]|
      cbn [app] in E; inversion E as [[X1 X2]]; subst; clear E; rename X2 into E; try (destruct p; discriminate E)]).
  - intros s [<-|[<-|[<-|[<-|[]]]]]; split; repeat constructor; cbn; intuition discriminate.
Qed.
