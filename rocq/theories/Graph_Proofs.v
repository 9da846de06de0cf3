From Coq Require Import List Arith Bool Lia Permutation Sorted.
From Verif Require Import Base Maps Hierarchy_Proofs Confluent_Proofs Graph_Model Graph_Spec.
Import ListNotations.

(** ** Ordered sets *)
Lemma smem_in x l : smem x l = true <-> In x l.
Proof.
  unfold smem. rewrite existsb_exists. split.
  - intros (y & H & E). apply Nat.eqb_eq in E. subst; auto.
  - intro H. exists x. split; auto. apply Nat.eqb_refl.
Qed.
Lemma smem_false x l : smem x l = false <-> ~ In x l.
Proof. rewrite <- smem_in. destruct (smem x l); split; congruence. Qed.

Lemma sins_in x y l : In y (sins x l) <-> y = x \/ In y l.
Proof.
  induction l as [|z l IH]; cbn [sins]; [cbn; intuition auto|].
  destruct (Nat.ltb_spec x z); [cbn; intuition auto|].
  destruct (Nat.eqb_spec x z) as [->|]; [cbn; intuition auto|].
  cbn [In]. rewrite IH. intuition auto.
Qed.
Lemma sins_sorted x l : StronglySorted lt l -> StronglySorted lt (sins x l).
Proof.
  induction 1 as [|z l S IH F]; cbn [sins]; [repeat constructor|].
  destruct (Nat.ltb_spec x z) as [L|L].
  - constructor; [constructor; auto|]. constructor; auto. rewrite Forall_forall in *. intros y Hy. specialize (F y Hy). lia.
  - destruct (Nat.eqb_spec x z) as [->|N]; [constructor; auto|]. constructor; auto.
    rewrite Forall_forall in *. intros y Hy. apply sins_in in Hy. destruct Hy as [->|Hy]; [lia|]. apply F; auto.
Qed.
Lemma sorted_nodup l : StronglySorted lt l -> NoDup l.
Proof.
  induction 1 as [|z l S IH F]; constructor; auto. intro H. rewrite Forall_forall in F. specialize (F z H). lia.
Qed.

Lemma fold_sins (f : nat * nat -> nat) ls : forall acc, StronglySorted lt acc ->
  StronglySorted lt (fold_left (fun a l => sins (f l) a) ls acc) /\
  forall y, In y (fold_left (fun a l => sins (f l) a) ls acc) <-> In y acc \/ In y (map f ls).
Proof.
  induction ls as [|l ls IH]; intros acc S; cbn [fold_left map].
  - split; auto. intro y. cbn. tauto.
  - destruct (IH (sins (f l) acc)) as [H1 H2]; [apply sins_sorted; auto|]. split; auto.
    intro y. rewrite H2, sins_in. cbn. intuition auto.
Qed.

Lemma end_set_in s e bp : In bp (end_set s e) <-> at_end s e bp.
Proof.
  unfold end_set, at_end. destruct (fold_sins (lane_bp e) (sg_lanes s) [] (SSorted_nil _)) as [_ H]. rewrite H. cbn [In].
  rewrite in_map_iff. split.
  - intros [[]|(l & <- & Hl)]. exists l. destruct e; auto.
  - intros (l & Hl & ->). right. exists l. destruct e; auto.
Qed.
Lemma end_set_nodup s e : NoDup (end_set s e).
Proof. apply sorted_nodup. apply (fold_sins (lane_bp e) (sg_lanes s) [] (SSorted_nil _)). Qed.

Lemma end_set_size s e : length (end_set s e) = length (sg_lanes s) <-> NoDup (map (lane_bp e) (sg_lanes s)).
Proof.
  assert (I : forall bp, In bp (end_set s e) <-> In bp (map (lane_bp e) (sg_lanes s))).
  { intro bp. rewrite end_set_in. unfold at_end. rewrite in_map_iff. split; intros (l & A & B); exists l; destruct e; auto. }
  rewrite <- (map_length (lane_bp e) (sg_lanes s)). split.
  - intro L. apply (NoDup_incl_NoDup (l := end_set s e)); [apply end_set_nodup|lia|]. intros x Hx. apply I; auto.
  - intro N. apply Permutation_length. apply NoDup_Permutation; auto. apply end_set_nodup.
Qed.

Lemma get_branch_points s e : (NoDup (map (lane_bp e) (sg_lanes s)) /\ GetBranchPoints s e = Ok (end_set s e)) \/
  (~ NoDup (map (lane_bp e) (sg_lanes s)) /\ GetBranchPoints s e = Throw).
Proof.
  unfold GetBranchPoints, throw_unless. destruct (Nat.eqb_spec (length (end_set s e)) (length (sg_lanes s))) as [E|E].
  - left. split; auto. apply end_set_size; auto.
  - right. split; auto. intro N. apply E. apply end_set_size; auto.
Qed.

(** ** Building *)
Section Build.
Variable ord : list (nat * node) -> list (nat * node).
Hypothesis ord_perm : forall l, Permutation (ord l) l.

Definition nfind (g : graph) (k : nat) := mfind Nat.eqb k (g_nodes g).
Definition efind (g : graph) (k : nat) := mfind Nat.eqb k (g_edges g).
Definition etouch (e : edge) (k : nat) : Prop := e_a e = k \/ e_b e = k.

Record binv (done : list segment) (g : graph) (next : nat) : Prop := {
  bi_ek : NoDup (map fst (g_edges g));
  bi_nk : NoDup (map fst (g_nodes g));
  bi_n : forall k n, nfind g k = Some n -> n_id n = k /\ k < next /\ StronglySorted lt (n_edges n);
  bi_e : forall k e, efind g k = Some e -> e_id e = k /\ In (e_seg e) done /\ sg_id (e_seg e) = k;
  bi_d : forall s, In s done -> exists e, efind g (sg_id s) = Some e /\ e_seg e = s;
  bi_ends : forall k e, efind g k = Some e -> nfind g (e_a e) <> None /\ nfind g (e_b e) <> None;
  bi_inc : forall k n, nfind g k = Some n -> forall id, In id (n_edges n) <-> exists e, efind g id = Some e /\ etouch e k;
  bi_bps : forall k n, nfind g k = Some n -> exists s e, In s done /\ forall bp, In bp (n_bps n) <-> at_end s e bp;
  bi_meet : forall k e, efind g k = Some e -> forall w : bool, exists n, nfind g (if w then e_b e else e_a e) = Some n /\
     ((forall bp, In bp (n_bps n) <-> at_end (e_seg e) w bp) \/ exists bp, In bp (n_bps n) /\ at_end (e_seg e) w bp) }.

Lemma node_in_find g k n : NoDup (map fst (g_nodes g)) -> (In (k, n) (g_nodes g) <-> nfind g k = Some n).
Proof.
  intro N. split; [apply (mfind_nodup Nat.eqb nat_eqb_ok); auto|apply (mfind_in Nat.eqb nat_eqb_ok)].
Qed.

Lemma find_node_of g bps : NoDup (map fst (g_nodes g)) -> match FindNodeOf ord g bps with
  | Some n => (exists k, nfind g k = Some n) /\ exists bp, In bp bps /\ In bp (n_bps n)
  | None => forall k n bp, nfind g k = Some n -> In bp bps -> ~ In bp (n_bps n)
  end.
Proof.
  intro N. unfold FindNodeOf. destruct (find _ (ord (g_nodes g))) as [[k n]|] eqn:F; cbn [option_map snd].
  - apply find_some in F. destruct F as [I E]. cbn [snd] in E. split.
    + exists k. apply node_in_find; auto. apply (Permutation_in _ (ord_perm _)). exact I.
    + apply existsb_exists in E. destruct E as (bp & H1 & H2). exists bp. split; auto. apply smem_in; auto.
  - intros k n bp H Hb Hn.
    assert (I : In (k, n) (ord (g_nodes g))).
    { apply (Permutation_in _ (Permutation_sym (ord_perm _))). apply node_in_find; auto. }
    pose proof (find_none _ _ F (k, n) I) as E. cbn [snd] in E.
    assert (existsb (fun bp => smem bp (n_bps n)) bps = true); [|congruence].
    apply existsb_exists. exists bp. split; auto. apply smem_in; auto.
Qed.

(** What GetNode gives. *)
Definition got (g : graph) (bps : list nat) (next : nat) (n : node) (next' : nat) : Prop :=
  (nfind g (n_id n) = Some n /\ next' = next /\ exists bp, In bp bps /\ In bp (n_bps n)) \/
  (n = mk_node next bps [] /\ next' = S next /\ forall k m bp, nfind g k = Some m -> In bp bps -> ~ In bp (n_bps m)).

Lemma get_node_got done g n0 bps next : binv done g n0 -> let (n, next') := GetNode ord g bps next in got g bps next n next'.
Proof.
  intro I. unfold GetNode. pose proof (find_node_of g bps (bi_nk _ _ _ I)) as F. destruct (FindNodeOf ord g bps) as [n|].
  - destruct F as [[k H] B]. left. destruct (bi_n _ _ _ I k n H) as [-> _]. auto.
  - right. auto.
Qed.

Lemma got_edges done g next n next' bps next0 : binv done g next0 -> next0 <= next -> got g bps next n next' ->
  StronglySorted lt (n_edges n) /\ n_id n < next' /\ next <= next' /\
  (forall id, In id (n_edges n) <-> exists e, efind g id = Some e /\ etouch e (n_id n)).
Proof.
  intros I L [(H & -> & _)|(-> & -> & _)].
  - destruct (bi_n _ _ _ I _ _ H) as (_ & L' & S). split; auto. split; [lia|]. split; [lia|]. exact (bi_inc _ _ _ I _ _ H).
  - cbn. split; [constructor|]. split; [lia|]. split; [lia|]. intro id. split; [intros []|]. intros (e & E & T).
    destruct (bi_ends _ _ _ I id e E) as [A B].
    assert (X : forall k, nfind g k <> None -> k < next).
    { intros k Hk. destruct (nfind g k) as [m|] eqn:F; [|congruence]. destruct (bi_n _ _ _ I k m F) as (_ & Y & _). lia. }
    destruct T as [T|T]; [specialize (X _ A)|specialize (X _ B)]; lia.
Qed.

Lemma add_segment_inv done g next s : binv done g next -> ~ In (sg_id s) (map sg_id done) ->
  (separate_lanes s /\ exists g' next' sn en next1, add_segment ord s (g, next) = Ok (g', next') /\ binv (done ++ [s]) g' next' /\
     got g (end_set s false) next sn next1 /\ got g (end_set s true) next1 en next' /\
     g_edges g' = mset Nat.eqb (sg_id s) (mk_edge (sg_id s) s (n_id sn) (n_id en)) (g_edges g) /\
     g_nodes g' = mset Nat.eqb (n_id en) (mk_node (n_id en) (n_bps en) (sins (sg_id s) (n_edges en)))
                    (mset Nat.eqb (n_id sn) (mk_node (n_id sn) (n_bps sn) (sins (sg_id s) (n_edges sn))) (g_nodes g))) \/
  (~ separate_lanes s /\ add_segment ord s (g, next) = Throw).
Proof.
  intros I Fresh. unfold add_segment, separate_lanes.
  destruct (get_branch_points s false) as [[N1 ->]|[N1 ->]]; [|right; split; [tauto|reflexivity]]. cbn [obind].
  destruct (get_branch_points s true) as [[N2 ->]|[N2 ->]]; [|right; split; [tauto|reflexivity]]. cbn [obind].
  left. split; [split; assumption|].
  pose proof (get_node_got done g next (end_set s false) next I) as G1. destruct (GetNode ord g (end_set s false) next) as [sn next1].
  pose proof (get_node_got done g next (end_set s true) next1 I) as G2. destruct (GetNode ord g (end_set s true) next1) as [en next2].
  cbn [e_id n_id].
  do 5 eexists. split; [reflexivity|]. split; [|split; [exact G1|split; [exact G2|split; reflexivity]]].
  destruct (got_edges done g next sn next1 _ next I (le_n _) G1) as (S1 & L1 & L1' & E1).
  destruct (got_edges done g next1 en next2 _ next I L1' G2) as (S2 & L2 & L2' & E2).
  set (e := mk_edge (sg_id s) s (n_id sn) (n_id en)).
  set (sn' := mk_node (n_id sn) (n_bps sn) (sins (sg_id s) (n_edges sn))).
  set (en' := mk_node (n_id en) (n_bps en) (sins (sg_id s) (n_edges en))).
  set (g' := mk_graph (mset Nat.eqb (sg_id s) e (g_edges g)) (mset Nat.eqb (n_id en) en' (mset Nat.eqb (n_id sn) sn' (g_nodes g)))).
  assert (Fe : forall k, efind g' k = if Nat.eqb k (sg_id s) then Some e else efind g k).
  { intro k. unfold efind, g'. cbn [g_edges]. destruct (Nat.eqb_spec k (sg_id s)) as [->|D].
    - apply (mfind_set_eq Nat.eqb nat_eqb_ok).
    - apply (mfind_set_neq Nat.eqb nat_eqb_ok); auto. }
  assert (Fn : forall k, nfind g' k = if Nat.eqb k (n_id en) then Some en' else if Nat.eqb k (n_id sn) then Some sn' else nfind g k).
  { intro k. unfold nfind, g'. cbn [g_nodes]. destruct (Nat.eqb_spec k (n_id en)) as [->|D].
    - apply (mfind_set_eq Nat.eqb nat_eqb_ok).
    - rewrite (mfind_set_neq Nat.eqb nat_eqb_ok) by auto. destruct (Nat.eqb_spec k (n_id sn)) as [->|D'].
      + apply (mfind_set_eq Nat.eqb nat_eqb_ok).
      + apply (mfind_set_neq Nat.eqb nat_eqb_ok); auto. }
  assert (Fs : efind g (sg_id s) = None).
  { destruct (efind g (sg_id s)) as [x|] eqn:E; auto. exfalso. apply Fresh. destruct (bi_e _ _ _ I _ _ E) as (_ & H1 & H2).
    rewrite <- H2. apply in_map. exact H1. }
  assert (Keep : forall k, nfind g k <> None -> nfind g' k <> None).
  { intros k H. rewrite Fn. destruct (Nat.eqb k (n_id en)); [discriminate|]. destruct (Nat.eqb k (n_id sn)); [discriminate|auto]. }
  assert (New : nfind g' (n_id sn) <> None /\ nfind g' (n_id en) <> None).
  { split; rewrite Fn; [destruct (Nat.eqb (n_id sn) (n_id en)); [discriminate|]|]; rewrite Nat.eqb_refl; discriminate. }
  (* a node keeps its branch points *)
  assert (Bps : forall k n, nfind g k = Some n -> exists n', nfind g' k = Some n' /\ n_bps n' = n_bps n).
  { intros k n H. rewrite Fn. destruct (Nat.eqb_spec k (n_id en)) as [->|D].
    - exists en'. split; auto. destruct G2 as [(H2 & _)|(-> & _ & _)]; [rewrite H2 in H; inversion H; subst; reflexivity|].
      exfalso. cbn in *. destruct (bi_n _ _ _ I _ _ H) as (_ & X & _). lia.
    - destruct (Nat.eqb_spec k (n_id sn)) as [->|D'].
      + exists sn'. split; auto. destruct G1 as [(H1 & _)|(-> & _ & _)]; [rewrite H1 in H; inversion H; subst; reflexivity|].
        exfalso. cbn in *. destruct (bi_n _ _ _ I _ _ H) as (_ & X & _). lia.
      + eauto. }
  assert (SB : forall bps nx n nx', got g bps nx n nx' -> (forall k m, nfind g k = Some m -> exists s0 e0, In s0 (done ++ [s]) /\ forall bp, In bp (n_bps m) <-> at_end s0 e0 bp) ->
     forall e0, bps = end_set s e0 -> exists s0 e0, In s0 (done ++ [s]) /\ forall bp, In bp (n_bps n) <-> at_end s0 e0 bp).
  { intros bps nx n nx' G H e0 ->. destruct G as [(H1 & _)|(-> & _)]; [eauto|]. exists s, e0. cbn. split; [apply in_or_app; right; left; auto|].
    intro bp. apply end_set_in. }
  assert (OldB : forall k m, nfind g k = Some m -> exists s0 e0, In s0 (done ++ [s]) /\ forall bp, In bp (n_bps m) <-> at_end s0 e0 bp).
  { intros k m H. destruct (bi_bps _ _ _ I k m H) as (s0 & e0 & H0 & H1). exists s0, e0. split; auto. apply in_or_app; auto. }
  constructor.
  - unfold g'. cbn [g_edges]. apply (mset_nodup Nat.eqb nat_eqb_ok). exact (bi_ek _ _ _ I).
  - unfold g'. cbn [g_nodes]. apply (mset_nodup Nat.eqb nat_eqb_ok). apply (mset_nodup Nat.eqb nat_eqb_ok). exact (bi_nk _ _ _ I).
  - intros k n H. rewrite Fn in H. destruct (Nat.eqb_spec k (n_id en)) as [->|D].
    + inversion H; subst n. cbn. split; auto. split; [lia|]. apply sins_sorted; auto.
    + destruct (Nat.eqb_spec k (n_id sn)) as [->|D'].
      * inversion H; subst n. cbn. split; auto. split; [lia|]. apply sins_sorted; auto.
      * destruct (bi_n _ _ _ I k n H) as (A & B & C). split; auto. split; [lia|auto].
  - intros k x H. rewrite Fe in H. destruct (Nat.eqb_spec k (sg_id s)) as [->|D].
    + inversion H; subst x. cbn. split; auto. split; auto. apply in_or_app; right; left; auto.
    + destruct (bi_e _ _ _ I k x H) as (A & B & C). split; auto. split; auto. apply in_or_app; auto.
  - intros t Ht. rewrite Fe. apply in_app_or in Ht. destruct Ht as [Ht|[<-|[]]].
    + destruct (Nat.eqb_spec (sg_id t) (sg_id s)) as [E|D].
      * exfalso. apply Fresh. rewrite <- E. apply in_map; auto.
      * exact (bi_d _ _ _ I t Ht).
    + rewrite Nat.eqb_refl. exists e. auto.
  - intros k x H. rewrite Fe in H. destruct (Nat.eqb_spec k (sg_id s)) as [->|D].
    + inversion H; subst x. exact New.
    + destruct (bi_ends _ _ _ I k x H). split; apply Keep; auto.
  - assert (Inc : forall n, (forall id, In id (n_edges n) <-> exists x, efind g id = Some x /\ etouch x (n_id n)) ->
      (n_id n = n_id sn \/ n_id n = n_id en) -> forall id, In id (sins (sg_id s) (n_edges n)) <-> exists x, efind g' id = Some x /\ etouch x (n_id n)).
    { intros n H T id. rewrite sins_in, H. setoid_rewrite Fe. split.
      - intros [->|(x & X1 & X2)].
        + exists e. rewrite Nat.eqb_refl. split; auto. unfold etouch, e. cbn. destruct T; auto.
        + exists x. destruct (Nat.eqb_spec id (sg_id s)) as [->|]; [congruence|]. auto.
      - intros (x & X1 & X2). destruct (Nat.eqb_spec id (sg_id s)) as [->|]; auto. right. eauto. }
    intros k n H. rewrite Fn in H. destruct (Nat.eqb_spec k (n_id en)) as [->|D].
    + inversion H; subst n. cbn [en' n_edges]. apply Inc; auto.
    + destruct (Nat.eqb_spec k (n_id sn)) as [->|D'].
      * inversion H; subst n. cbn [sn' n_edges]. apply Inc; auto.
      * intro id. rewrite (bi_inc _ _ _ I k n H id). setoid_rewrite Fe. split.
        -- intros (x & X1 & X2). exists x. destruct (Nat.eqb_spec id (sg_id s)) as [->|]; [congruence|]. auto.
        -- intros (x & X1 & X2). destruct (Nat.eqb_spec id (sg_id s)) as [->|]; [|eauto].
           inversion X1; subst x. exfalso. unfold etouch, e in X2. cbn in X2. destruct X2; congruence.
  - intros k n H. rewrite Fn in H. destruct (Nat.eqb_spec k (n_id en)) as [->|D].
    + inversion H; subst n. cbn [en' n_bps]. eapply SB; eauto.
    + destruct (Nat.eqb_spec k (n_id sn)) as [->|D'].
      * inversion H; subst n. cbn [sn' n_bps]. eapply SB; eauto.
      * eapply OldB; eauto.
  - intros k x H w. rewrite Fe in H. destruct (Nat.eqb_spec k (sg_id s)) as [->|D].
    + inversion H; subst x. cbn [e e_a e_b e_seg].
      assert (Q : forall bps nx n nx', got g bps nx n nx' -> bps = end_set s w ->
                (forall bp, In bp (n_bps n) <-> at_end s w bp) \/ exists bp, In bp (n_bps n) /\ at_end s w bp).
      { intros bps nx n nx' [(_ & _ & bp & Hb1 & Hb2)|(-> & _)] ->.
        - right. exists bp. split; auto. apply end_set_in; auto.
        - left. intro bp. cbn. apply end_set_in. }
      destruct w.
      * exists en'. rewrite Fn, Nat.eqb_refl. split; auto. cbn [en' n_bps]. eapply Q; eauto.
      * rewrite Fn. destruct (Nat.eqb_spec (n_id sn) (n_id en)) as [E|_].
        -- exists en'. split; auto. cbn [en' n_bps].
           assert (Es : n_bps en = n_bps sn).
           { destruct G1 as [(H1 & _ & _)|(-> & -> & _)], G2 as [(H2 & _ & _)|(-> & -> & _)].
             - rewrite E in H1. congruence.
             - cbn in E. destruct (bi_n _ _ _ I _ _ H1) as (_ & X & _). lia.
             - cbn in E. destruct (bi_n _ _ _ I _ _ H2) as (_ & X & _). lia.
             - cbn in E. lia. }
           rewrite Es. eapply Q; eauto.
        -- exists sn'. rewrite Nat.eqb_refl. split; auto. cbn [sn' n_bps]. eapply Q; eauto.
    + destruct (bi_meet _ _ _ I k x H w) as (n & Hn & Hb). destruct (Bps _ _ Hn) as (n' & Hn' & E). exists n'. rewrite E. auto.
Qed.

Lemma binv_init : binv [] (mk_graph [] []) 0.
Proof.
  constructor; cbn; try constructor; try discriminate; try (intros; discriminate).
  intros s [].
Qed.

Lemma add_segments_inv ss : forall done g next, binv done g next -> NoDup (map sg_id (done ++ ss)) ->
  ((forall s, In s ss -> separate_lanes s) /\ exists g' next', add_segments ord ss (g, next) = Ok (g', next') /\ binv (done ++ ss) g' next') \/
  ((exists s, In s ss /\ ~ separate_lanes s) /\ add_segments ord ss (g, next) = Throw).
Proof.
  induction ss as [|s ss IH]; intros done g next I N; cbn [add_segments].
  - left. split; [intros s []|]. exists g, next. rewrite app_nil_r. auto.
  - assert (Fresh : ~ In (sg_id s) (map sg_id done)).
    { rewrite map_app in N. cbn in N. apply NoDup_remove_2 in N. intro H. apply N. apply in_or_app; auto. }
    destruct (add_segment_inv done g next s I Fresh) as [(Sep & g' & next' & sn & en & n1 & -> & I' & _)|(Sep & ->)]; cbn [obind].
    + destruct (IH (done ++ [s]) g' next' I') as [(H & g2 & n2 & -> & I2)|((t & Ht & Hs) & ->)].
      * rewrite <- app_assoc. exact N.
      * left. split; [intros t [<-|Ht]; auto|]. exists g2, n2. rewrite <- app_assoc in I2. auto.
      * right. split; auto. exists t. split; auto. right; auto.
    + right. split; auto. exists s. split; auto. left; auto.
Qed.

(** ** Hubs first *)
Record hinv (done : list segment) (g : graph) : Prop := {
  hi_disj : forall k k' n n' bp, nfind g k = Some n -> nfind g k' = Some n' -> In bp (n_bps n) -> In bp (n_bps n') -> k = k';
  hi_cover : forall k e, efind g k = Some e -> forall w : bool, exists n, nfind g (if w then e_b e else e_a e) = Some n /\
     forall bp, at_end (e_seg e) w bp -> In bp (n_bps n) }.

Lemma hub_step done g next s g' next' sn en next1 : binv done g next -> hinv done g ->
  ~ In (sg_id s) (map sg_id done) ->
  (forall e, within_end done (at_end s e) \/ clear_of done (at_end s e)) ->
  (forall bp, at_end s false bp -> at_end s true bp -> ~ clear_of done (at_end s false)) ->
  got g (end_set s false) next sn next1 -> got g (end_set s true) next1 en next' ->
  g_edges g' = mset Nat.eqb (sg_id s) (mk_edge (sg_id s) s (n_id sn) (n_id en)) (g_edges g) ->
  g_nodes g' = mset Nat.eqb (n_id en) (mk_node (n_id en) (n_bps en) (sins (sg_id s) (n_edges en)))
                    (mset Nat.eqb (n_id sn) (mk_node (n_id sn) (n_bps sn) (sins (sg_id s) (n_edges sn))) (g_nodes g)) ->
  hinv (done ++ [s]) g'.
Proof.
  intros I H Fresh Hub Loop G1 G2 Ge Gn.
  assert (Covered : forall t e, In t done -> exists k n, nfind g k = Some n /\ forall bp, at_end t e bp -> In bp (n_bps n)).
  { intros t e Ht. destruct (bi_d _ _ _ I t Ht) as (x & X1 & X2). destruct (hi_cover _ _ H _ _ X1 e) as (n & Hn & Hb). rewrite X2 in Hb. eauto. }
  (* the node found or made for an end holds the whole end *)
  assert (All : forall e nx n nx', got g (end_set s e) nx n nx' -> forall bp, at_end s e bp -> In bp (n_bps n)).
  { intros e nx n nx' [(F & _ & b & Hb1 & Hb2)|(-> & _ & _)] bp Hbp; [|cbn; apply end_set_in; auto].
    apply end_set_in in Hb1. destruct (Hub e) as [(t & te & Ht & Ht2)|C].
    - destruct (Covered t te Ht) as (k & m & Hm & Cm).
      assert (k = n_id n) by (apply (hi_disj _ _ H k (n_id n) m n b Hm F); auto). subst k. rewrite F in Hm. inversion Hm; subst m. auto.
    - exfalso. destruct (bi_bps _ _ _ I _ _ F) as (t & te & Ht & Tb). apply (C t te b Ht); auto. apply Tb; auto. }
  assert (Fn : forall k, nfind g' k = if Nat.eqb k (n_id en) then Some (mk_node (n_id en) (n_bps en) (sins (sg_id s) (n_edges en)))
     else if Nat.eqb k (n_id sn) then Some (mk_node (n_id sn) (n_bps sn) (sins (sg_id s) (n_edges sn))) else nfind g k).
  { intro k. unfold nfind. rewrite Gn. destruct (Nat.eqb_spec k (n_id en)) as [->|D].
    - apply (mfind_set_eq Nat.eqb nat_eqb_ok).
    - rewrite (mfind_set_neq Nat.eqb nat_eqb_ok) by auto. destruct (Nat.eqb_spec k (n_id sn)) as [->|D'].
      + apply (mfind_set_eq Nat.eqb nat_eqb_ok).
      + apply (mfind_set_neq Nat.eqb nat_eqb_ok); auto. }
  assert (Fe : forall k, efind g' k = if Nat.eqb k (sg_id s) then Some (mk_edge (sg_id s) s (n_id sn) (n_id en)) else efind g k).
  { intro k. unfold efind. rewrite Ge. destruct (Nat.eqb_spec k (sg_id s)) as [->|D].
    - apply (mfind_set_eq Nat.eqb nat_eqb_ok).
    - apply (mfind_set_neq Nat.eqb nat_eqb_ok); auto. }
  (* same id, same branch points *)
  assert (Same : n_id sn = n_id en -> n_bps sn = n_bps en).
  { destruct (got_edges done g next sn next1 _ next I (le_n _) G1) as (_ & _ & L1 & _).
    intro E. destruct G1 as [(H1 & _ & _)|(-> & -> & _)], G2 as [(H2 & _ & _)|(-> & -> & _)].
    - rewrite E in H1. congruence.
    - cbn in E. destruct (bi_n _ _ _ I _ _ H1) as (_ & X & _). lia.
    - cbn in E. destruct (bi_n _ _ _ I _ _ H2) as (_ & X & _). lia.
    - cbn in E. lia. }
  (* sharing with an old node means being that node *)
  assert (OldShare : forall e nx n nx', got g (end_set s e) nx n nx' -> forall k m bp, nfind g k = Some m -> In bp (n_bps n) -> In bp (n_bps m) -> k = n_id n).
  { intros e nx n nx' G k m bp Hm B1 B2. destruct G as [(F & _ & _)|(-> & _ & D)].
    - apply (hi_disj _ _ H k (n_id n) m n bp); auto.
    - cbn in *. destruct (D k m bp Hm B1 B2). }
  assert (NewShare : forall bp, In bp (n_bps sn) -> In bp (n_bps en) -> n_id sn = n_id en).
  { intros bp B1 B2. destruct G1 as [(H1 & X1 & X2)|(E1 & X1 & X2)] eqn:Eq1.
    - symmetry. destruct G2 as [(H2 & Y)|(E2 & Y1 & Y2)]; [|subst en; cbn in B2; destruct (Y2 _ _ _ H1 B2 B1)].
      apply (hi_disj _ _ H (n_id en) (n_id sn) en sn bp); auto.
    - destruct G2 as [(H2 & Y)|(E2 & Y1 & Y2)].
      + subst sn. cbn in B1. destruct (X2 _ _ _ H2 B1 B2).
      + exfalso. subst sn en. cbn in B1, B2. apply end_set_in in B1. apply end_set_in in B2.
        apply (Loop bp B1 B2). intros t te b Ht Tb Sb. destruct (Covered t te Ht) as (k & m & Hm & Cm).
        apply (X2 k m b Hm); [apply end_set_in; auto|auto]. }
  constructor.
  - intros k k' n n' bp Hk Hk' B B'. rewrite Fn in Hk, Hk'.
    destruct (Nat.eqb_spec k (n_id en)) as [->|D1]; [|destruct (Nat.eqb_spec k (n_id sn)) as [->|D1']];
    (destruct (Nat.eqb_spec k' (n_id en)) as [->|D2]; [|destruct (Nat.eqb_spec k' (n_id sn)) as [->|D2']]);
    try (inversion Hk; subst n; cbn [n_bps] in B); try (inversion Hk'; subst n'; cbn [n_bps] in B'); auto.
    + symmetry. apply (NewShare bp); auto.
    + symmetry. eapply OldShare; eauto.
    + apply (NewShare bp); auto.
    + symmetry. eapply OldShare; eauto.
    + eapply OldShare; eauto.
    + eapply OldShare; eauto.
    + eapply (hi_disj _ _ H); eauto.
  - intros k x Hx w. rewrite Fe in Hx. destruct (Nat.eqb_spec k (sg_id s)) as [->|D].
    + inversion Hx; subst x. cbn [e_a e_b e_seg]. destruct w.
      * eexists. rewrite Fn, Nat.eqb_refl. split; [reflexivity|]. cbn [n_bps]. exact (All true _ _ _ G2).
      * rewrite Fn. destruct (Nat.eqb_spec (n_id sn) (n_id en)) as [E|_]; [|rewrite Nat.eqb_refl].
        -- eexists. split; [reflexivity|]. cbn [n_bps]. rewrite <- (Same E). exact (All false _ _ _ G1).
        -- eexists. split; [reflexivity|]. cbn [n_bps]. exact (All false _ _ _ G1).
    + destruct (hi_cover _ _ H _ _ Hx w) as (n & Hn & Hb).
      assert (X : exists n', nfind g' (if w then e_b x else e_a x) = Some n' /\ n_bps n' = n_bps n).
      { set (j := if w then e_b x else e_a x) in *. rewrite Fn. destruct (Nat.eqb_spec j (n_id en)) as [E|D1].
        - eexists. split; [reflexivity|]. cbn. destruct G2 as [(H2 & _)|(-> & _ & _)].
          + rewrite E in Hn. congruence.
          + exfalso. cbn in E. destruct (bi_n _ _ _ I _ _ Hn) as (_ & Y & _).
            destruct (got_edges done g next sn next1 _ next I (le_n _) G1) as (_ & _ & L & _). lia.
        - destruct (Nat.eqb_spec j (n_id sn)) as [E|D2]; [|eauto].
          eexists. split; [reflexivity|]. cbn. destruct G1 as [(H1 & _)|(-> & _ & _)].
          + rewrite E in Hn. congruence.
          + exfalso. cbn in E. destruct (bi_n _ _ _ I _ _ Hn) as (_ & Y & _). lia. }
      destruct X as (n' & X1 & X2). exists n'. rewrite X2. auto.
Qed.

Lemma add_segments_hubs ss : forall done g next g' next', binv done g next -> hinv done g -> NoDup (map sg_id (done ++ ss)) ->
  (forall p s q, ss = p ++ s :: q ->
    (forall e, within_end (done ++ p) (at_end s e) \/ clear_of (done ++ p) (at_end s e)) /\
    (forall bp, at_end s false bp -> at_end s true bp -> ~ clear_of (done ++ p) (at_end s false))) ->
  add_segments ord ss (g, next) = Ok (g', next') -> hinv (done ++ ss) g'.
Proof.
  induction ss as [|s ss IH]; intros done g next g' next' I H N Hub E; cbn [add_segments] in E.
  - inversion E; subst. rewrite app_nil_r. exact H.
  - assert (Fresh : ~ In (sg_id s) (map sg_id done)).
    { rewrite map_app in N. cbn in N. apply NoDup_remove_2 in N. intro X. apply N. apply in_or_app; auto. }
    destruct (add_segment_inv done g next s I Fresh) as [(Sep & g1 & n1 & sn & en & m & E1 & I1 & G1 & G2 & Ge & Gn)|(Sep & E1)];
      rewrite E1 in E; cbn [obind] in E; [|discriminate].
    destruct (Hub [] s ss eq_refl) as [Hub1 Hub2]. rewrite app_nil_r in Hub1, Hub2.
    pose proof (hub_step done g next s g1 n1 sn en m I H Fresh Hub1 Hub2 G1 G2 Ge Gn) as H1.
    replace (done ++ s :: ss) with ((done ++ [s]) ++ ss) by (rewrite <- app_assoc; reflexivity).
    apply (IH (done ++ [s]) g1 n1 g' next'); auto.
    + rewrite <- app_assoc. exact N.
    + intros p t q ->. destruct (Hub (s :: p) t q eq_refl) as [A B]. rewrite <- app_assoc. auto.
Qed.

Lemma hinv_init : hinv [] (mk_graph [] []).
Proof. constructor; cbn; intros; discriminate. Qed.
End Build.

(** ** Path search *)
Section Paths.
Variable g : graph.
Hypothesis Inc : incidence g.

Lemma inc_edge_find e k : edge_in g e -> e_id e = k -> gat (g_edges g) k = Ok e.
Proof.
  intros H <-. destruct Inc as ((N & _) & _). unfold gat.
  rewrite (mfind_nodup Nat.eqb nat_eqb_ok (e_id e) e) by assumption. reflexivity.
Qed.
Lemma inc_node_find n k : node_in g n -> n_id n = k -> gat (g_nodes g) k = Ok n.
Proof.
  intros H <-. destruct Inc as ((_ & N & _) & _). unfold gat.
  rewrite (mfind_nodup Nat.eqb nat_eqb_ok (n_id n) n) by assumption. reflexivity.
Qed.
Lemma edge_unique e f : edge_in g e -> edge_in g f -> e_id e = e_id f -> e = f.
Proof.
  intros H1 H2 E. pose proof (inc_edge_find e (e_id e) H1 eq_refl) as X. rewrite (inc_edge_find f (e_id e) H2 (eq_sym E)) in X. congruence.
Qed.
Lemma edge_ends e : edge_in g e -> (exists n, node_in g n /\ n_id n = e_a e) /\ (exists n, node_in g n /\ n_id n = e_b e).
Proof. intro H. apply Inc. exact H. Qed.
Lemma node_key n : node_in g n -> In (n_id n) (map fst (g_nodes g)).
Proof. intro H. apply (in_map fst) in H. exact H. Qed.

Definition other (e : edge) (x : nat) : nat := if Nat.eqb (e_a e) x then e_b e else e_a e.
Lemma joins_other e x y : joins e x y -> y = other e x.
Proof.
  unfold joins, other. intros [[A B]|[A B]]; destruct (Nat.eqb_spec (e_a e) x); subst; auto; congruence.
Qed.
Lemma other_joins e x : e_a e = x \/ e_b e = x -> joins e x (other e x).
Proof. unfold joins, other. intros [H|H]; destruct (Nat.eqb_spec (e_a e) x); auto; congruence. Qed.

Lemma last_in (l : list nat) d : l <> [] -> In (last l d) l.
Proof.
  induction l as [|x l IH]; [congruence|]. intros _. destruct l as [|y l]; [left; auto|]. right. apply IH. discriminate.
Qed.
Lemma last_default (l : list nat) d d' : l <> [] -> last l d = last l d'.
Proof. induction l as [|x l IH]; [congruence|]. intros _. destruct l as [|y l]; auto. cbn [last] in *. apply IH. discriminate. Qed.

(** Paths from [x] to [goal] through nodes outside [visited], first edge id in [ids]. *)
Definition route (x goal : nat) (visited ids : list nat) (p : list edge) : Prop :=
  exists e rest ns, p = e :: rest /\ In (e_id e) ids /\ walk g (x :: ns) p /\ NoDup ns /\ ns <> [] /\
    (forall n, In n ns -> ~ In n visited) /\ last ns x = goal.

Lemma walk_cons_inv x ns e rest : walk g (x :: ns) (e :: rest) -> exists y ns', ns = y :: ns' /\ edge_in g e /\ joins e x y /\ walk g (y :: ns') rest.
Proof. intro H. inversion H; subst. eauto 8. Qed.
Lemma walk_nil_inv x ns : walk g (x :: ns) [] -> ns = [].
Proof. intro H. inversion H; auto. Qed.

Lemma NoDup_map_cons (e : edge) (l : list (list edge)) : NoDup l -> NoDup (map (cons e) l).
Proof.
  induction 1 as [|p l Hp N IH]; cbn; constructor; auto. intro H. apply in_map_iff in H. destruct H as (q & E & Hq).
  inversion E; subst. auto.
Qed.

Lemma sequences_spec goal : forall fuel start visited, node_in g start -> In (n_id start) visited -> NoDup visited ->
  incl visited (map fst (g_nodes g)) -> length (g_nodes g) < fuel + length visited ->
  exists l, sequences fuel g start goal visited = Ok l /\ NoDup l /\
    forall p, In p l <-> route (n_id start) goal visited (n_edges start) p.
Proof.
  induction fuel as [|f IH]; intros start visited Hs Hv Nv Iv L.
  { exfalso. pose proof (NoDup_incl_length Nv Iv) as X. rewrite map_length in X. lia. }
  assert (Sub : forall id, In id (n_edges start) -> exists e, edge_in g e /\ e_id e = id /\ touches e start).
  { intros id H. apply Inc in H; auto. }
  assert (Nd : NoDup (n_edges start)) by (apply Inc; auto).
  cbn [sequences].
  match goal with |- context [?F (n_edges start)] => set (each := F) end.
  assert (G : forall ids, incl ids (n_edges start) -> NoDup ids ->
    exists l, each ids = Ok l /\ NoDup l /\ forall p, In p l <-> route (n_id start) goal visited ids p).
  { induction ids as [|id ids IHi]; intros Ii Ni.
    - exists []. split; [reflexivity|]. split; [constructor|]. intro p. split; [intros []|]. intros (e & r & ns & _ & [] & _).
    - inversion Ni as [|? ? Ni1 Ni2]; subst.
      destruct IHi as (l & El & Nl & Hl); [intros z Hz; apply Ii; right; auto|auto|].
      destruct (Sub id (Ii id (or_introl eq_refl))) as (e & He & Eid & Te).
      pose proof (other_joins e (n_id start) Te) as Je. set (y := other e (n_id start)) in *.
      assert (Yn : exists v, node_in g v /\ n_id v = y).
      { destruct (edge_ends e He) as [A B]. unfold y, other. destruct (Nat.eqb (e_a e) (n_id start)); auto. }
      destruct Yn as (v & Hvn & Ey).
      cbn [each]. fold each. rewrite (inc_edge_find e id He Eid). cbn [obind].
      change (if Nat.eqb (e_a e) (n_id start) then e_b e else e_a e) with y.
      rewrite (inc_node_find v y Hvn Ey). cbn [obind].
      assert (Here : exists h, (if smem (n_id v) visited then Ok []
                    else if Nat.eqb (n_id v) goal then Ok [[e]]
                    else omap (map (cons e)) (sequences f g v goal (n_id v :: visited))) = Ok h /\ NoDup h /\
          forall p, In p h <-> route (n_id start) goal visited [id] p).
      { destruct (smem (n_id v) visited) eqn:M.
        - exists []. split; auto. split; [constructor|]. intro p. split; [intros []|].
          intros (e' & r & ns & -> & [E|[]] & W & N & Ne & D & La). apply walk_cons_inv in W.
          destruct W as (y' & ns' & -> & He' & J & W). assert (e' = e) by (apply edge_unique; auto; congruence). subst e'.
          apply joins_other in J. fold y in J. subst y'. apply (D y); [left; auto|]. rewrite <- Ey. apply smem_in; auto.
        - apply smem_false in M. destruct (Nat.eqb_spec (n_id v) goal) as [Eg|Ng].
          + exists [[e]]. split; auto. split; [repeat constructor; intros []|]. intro p. split.
            * intros [<-|[]]. exists e, [], [y]. split; auto. split; [left; auto|]. split; [constructor; auto; constructor|].
              split; [repeat constructor; intros []|]. split; [discriminate|]. split; [|cbn; congruence]. intros n [<-|[]]. rewrite <- Ey. auto.
            * intros (e' & r & ns & -> & [E|[]] & W & N & Ne & D & La). apply walk_cons_inv in W.
              destruct W as (y' & ns' & -> & He' & J & W). assert (e' = e) by (apply edge_unique; auto; congruence). subst e'.
              apply joins_other in J. fold y in J. subst y'. destruct ns' as [|z ns'].
              -- inversion W; subst. left; auto.
              -- exfalso. inversion N as [|? ? N1 N2]; subst. apply N1. rewrite <- Ey.
                 replace (n_id v) with (last (y :: z :: ns') (n_id start)) by congruence.
                 change (last (y :: z :: ns') (n_id start)) with (last (z :: ns') (n_id start)).
                 apply last_in. discriminate.
          + destruct (IH v (n_id v :: visited)) as (h & Eh & Nh & Hh); auto.
            * left; auto.
            * constructor; auto.
            * intros z [<-|Hz]; auto. apply node_key; auto.
            * cbn. lia.
            * rewrite Eh. exists (map (cons e) h). split; auto. split; [apply NoDup_map_cons; auto|]. intro p. rewrite in_map_iff. split.
              -- intros (q & <- & Hq). apply Hh in Hq. destruct Hq as (e' & r & ns & -> & Ie & W & N & Ne & D & La).
                 exists e, (e' :: r), (n_id v :: ns). split; auto. split; [left; auto|]. split; [constructor; auto; rewrite Ey; auto|].
                 split; [constructor; auto; intro X; apply (D _ X); left; auto|]. split; [discriminate|]. split.
                 ++ intros n [<-|Hn]; auto. intro X. apply (D n Hn). right; auto.
                 ++ destruct ns as [|z ns]; [congruence|]. change (last (n_id v :: z :: ns) (n_id start)) with (last (z :: ns) (n_id start)).
                    rewrite <- La. apply last_default. discriminate.
              -- intros (e' & r & ns & -> & [E|[]] & W & N & Ne & D & La). pose proof W as W0. apply walk_cons_inv in W.
                 destruct W as (y' & ns' & -> & He' & J & W). assert (e' = e) by (apply edge_unique; auto; congruence). subst e'.
                 apply joins_other in J. fold y in J. subst y'. exists r. split; auto. apply Hh.
                 destruct r as [|e2 r].
                 ++ exfalso. apply walk_nil_inv in W. subst ns'. cbn in La. congruence.
                 ++ exists e2, r, ns'. split; auto. destruct (walk_cons_inv _ _ _ _ W) as (y2 & ns2 & -> & He2 & J2 & W2).
                    split.
                    { apply Inc; auto. exists e2. split; auto. split; auto. unfold touches. rewrite Ey. destruct J2 as [[]|[]]; auto. }
                    rewrite Ey. split; [exact W|]. inversion N as [|? ? N1 N2]; subst. split; auto. split; [discriminate|]. split.
                    { intros n Hn [X|X]; [subst n; auto|]. apply (D n); auto. right; auto. }
                    change (last (y :: y2 :: ns2) (n_id start)) with (last (y2 :: ns2) (n_id start)). apply last_default. discriminate. }
      destruct Here as (h & -> & Nh & Hh). cbn [obind]. rewrite El. cbn [omap]. exists (h ++ l). split; auto. split.
      + apply NoDup_app_intro; auto. intros p P1 P2. apply Hh in P1. apply Hl in P2.
        destruct P1 as (e1 & r1 & ns1 & -> & [X|[]] & _). destruct P2 as (e2 & r2 & ns2 & X2 & Y & _). inversion X2; subst e2 r2. apply Ni1. rewrite X. exact Y.
      + intro p. rewrite in_app_iff, Hh, Hl. split.
        * intros [(e1 & r1 & ns1 & A & [B|[]] & C)|(e1 & r1 & ns1 & A & B & C)]; exists e1, r1, ns1; split; auto; split; auto; [left; auto|right; auto].
        * intros (e1 & r1 & ns1 & A & [B|B] & C); [left|right]; exists e1, r1, ns1; split; auto; split; auto. left; auto. }
  destruct (G (n_edges start) (fun z H => H) Nd) as (l & El & Nl & Hl). exists l. auto.
Qed.

(** ** Drivable sequences *)
Variable a_side : nat -> list nat.

Lemma connection_spec e f x y z : joins e x y -> joins f y z -> x <> y -> y <> z -> x <> z ->
  exists ee fe, connection e f = Ok (ee, fe) /\
    forall bp, shared_bp e f bp <-> at_end (e_seg e) ee bp /\ at_end (e_seg f) fe bp.
Proof.
  intros Je Jf X1 X2 X3. unfold connection.
  assert (K : exists ee fe : bool, (if ee then e_b e else e_a e) = y /\ (if ee then e_a e else e_b e) = x /\
                                   (if fe then e_b f else e_a f) = y /\ (if fe then e_a f else e_b f) = z).
  { destruct Je as [[A B]|[A B]], Jf as [[C D]|[C D]]; [exists true, false|exists true, true|exists false, false|exists false, true]; auto. }
  destruct K as (ee & fe & A & B & C & D). exists ee, fe. split.
  - destruct ee, fe; subst; repeat (match goal with |- context [Nat.eqb ?u ?v] => destruct (Nat.eqb_spec u v) as [?E|?E] end); try reflexivity; try congruence.
  - intro bp. split.
    + intros (e' & f' & E & H1 & H2). assert (e' = ee /\ f' = fe) as [-> ->]; auto.
      destruct ee, fe, e', f'; subst; auto; congruence.
    + intros [H1 H2]. exists ee, fe. split; [congruence|auto].
Qed.

Lemma across_iff e f bp : negb (Bool.eqb (smem (sg_id (e_seg e)) (a_side bp)) (smem (sg_id (e_seg f)) (a_side bp))) = true <-> across a_side e f bp.
Proof.
  unfold across. rewrite <- !smem_in. destruct (smem (sg_id (e_seg e)) (a_side bp)), (smem (sg_id (e_seg f)) (a_side bp)); cbn; intuition congruence.
Qed.

Lemma opposing_spec e f x y z : joins e x y -> joins f y z -> x <> y -> y <> z -> x <> z ->
  exists b, opposing a_side e f = Ok b /\ (b = true -> exists bp, shared_bp e f bp /\ across a_side e f bp) /\
    ((exists bp, shared_bp e f bp) -> (forall bp, shared_bp e f bp -> across a_side e f bp) -> b = true).
Proof.
  intros Je Jf X1 X2 X3. destruct (connection_spec e f x y z Je Jf X1 X2 X3) as (ee & fe & C & S).
  unfold opposing. rewrite C. cbn [obind fst snd].
  destruct (filter _ (end_set (e_seg e) ee)) as [|bp l] eqn:F.
  - exists false. split; auto. split; [discriminate|]. intros (bp & Hb) _. exfalso. apply S in Hb.
    assert (In bp []) as []. rewrite <- F. apply filter_In. split; [apply end_set_in; tauto|]. apply smem_in, end_set_in. tauto.
  - assert (Hb : shared_bp e f bp).
    { assert (I : In bp (bp :: l)) by (left; auto). rewrite <- F in I. apply filter_In in I. destruct I as [I1 I2].
      apply S. split; apply end_set_in; auto. apply smem_in; auto. }
    eexists. split; [reflexivity|]. rewrite across_iff. split; eauto.
Qed.

Lemma drivable_spec es : forall ns, walk g ns es -> NoDup ns -> es <> [] ->
  exists b, drivable a_side es = Ok b /\
    (b = true -> consecutive (fun e f => exists bp, shared_bp e f bp /\ across a_side e f bp) es) /\
    (consecutive (fun e f => (exists bp, shared_bp e f bp) /\ forall bp, shared_bp e f bp -> across a_side e f bp) es -> b = true).
Proof.
  assert (G : forall ns, walk g ns es -> NoDup ns -> exists b, pairs_drivable a_side es = Ok b /\
    (b = true -> consecutive (fun e f => exists bp, shared_bp e f bp /\ across a_side e f bp) es) /\
    (consecutive (fun e f => (exists bp, shared_bp e f bp) /\ forall bp, shared_bp e f bp -> across a_side e f bp) es -> b = true)).
  { induction es as [|e [|f es] IH]; intros ns W N.
    - exists true. split; auto. split; auto. intros _. constructor.
    - exists true. split; auto. split; auto. intros _. constructor.
    - inversion W as [|x y ns1 e1 es1 He Je W1]; subst. inversion W1 as [|? z ns2 e2 es2 Hf Jf W2]; subst.
      inversion N as [|? ? N1 N2]; subst. inversion N2 as [|? ? N3 N4]; subst.
      destruct (IH (y :: z :: ns2) W1 N2) as (b2 & E2 & B1 & B2).
      destruct (opposing_spec e f x y z Je Jf) as (b & E & O1 & O2).
      + intro X. apply N1. rewrite X. left; auto.
      + intro X. apply N3. rewrite X. left; auto.
      + intro X. apply N1. rewrite X. right; left; auto.
      + change (pairs_drivable a_side (e :: f :: es)) with (obind (opposing a_side e f) (fun x => if x : bool then pairs_drivable a_side (f :: es) else Ok false)).
        rewrite E. cbn [obind]. destruct b.
        * exists b2. split; auto. split.
          -- intro T. constructor; auto.
          -- intro T. inversion T; subst. auto.
        * exists false. split; auto. split; [discriminate|]. intro T. inversion T as [| |? ? ? [T1 T2] T3]; subst. auto. }
  intros ns W N Ne. destruct (G ns W N) as (b & E & B). exists b. destruct es; [congruence|]. auto.
Qed.

Lemma keep_drivable_spec l : (forall es, In es l -> exists b, drivable a_side es = Ok b) -> NoDup l ->
  exists r, keep_drivable a_side l = Ok r /\ NoDup r /\ forall es, In es r <-> In es l /\ drivable a_side es = Ok true.
Proof.
  induction l as [|es l IH]; intros H N; cbn [keep_drivable].
  - exists []. split; auto. split; [constructor|]. intro es. split; [intros []|intros [[] _]].
  - inversion N as [|? ? N1 N2]; subst. destruct (H es (or_introl eq_refl)) as (b & E). rewrite E. cbn [obind].
    destruct IH as (r & Er & Nr & Hr); [intros q Hq; apply H; right; auto|auto|]. rewrite Er. cbn [omap]. eexists. split; [reflexivity|].
    destruct b.
    + split; [constructor; auto; intro X; apply Hr in X; tauto|]. intro q. split.
      * intros [<-|Hq]; [split; [left; auto|auto]|]. apply Hr in Hq. destruct Hq. split; auto. right; auto.
      * intros [[<-|Hq] D]; [left; auto|]. right. apply Hr. auto.
    + split; auto. intro q. rewrite Hr. split.
      * intros [Hq D]. split; auto. right; auto.
      * intros [[<-|Hq] D]; [congruence|]. auto.
Qed.

Lemma route_simple x goal ids p : (forall id, In id ids <-> exists e, edge_in g e /\ e_id e = id /\ (e_a e = x \/ e_b e = x)) ->
  (route x goal [x] ids p <-> p <> [] /\ simple_path g x p goal).
Proof.
  intro Hids. split.
  - intros (e & r & ns & -> & Hi & W & N & Ne & D & La). split; [discriminate|]. exists (x :: ns). split; auto.
    split; [constructor; auto; intro X; apply (D x X); left; auto|]. split; auto.
    destruct ns as [|y ns]; [congruence|]. exact La.
  - intros [Ne (ns & W & N & Hd & La)]. destruct p as [|e r]; [congruence|]. destruct ns as [|x' ns]; [discriminate|]. inversion Hd; subst x'.
    destruct (walk_cons_inv _ _ _ _ W) as (y & ns' & -> & He & J & W'). inversion N as [|? ? N1 N2]; subst.
    exists e, r, (y :: ns'). split; auto. split.
    { apply Hids. exists e. split; auto. split; auto. destruct J as [[]|[]]; auto. }
    split; auto. split; auto. split; [discriminate|]. split; [|reflexivity]. intros n Hn [<-|[]]. auto.
Qed.
End Paths.
