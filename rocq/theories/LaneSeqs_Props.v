(** C37, C38, C39: lane sequences, U-turns, derived routes. *)
From Coq Require Import List Arith Bool QArith Lia Lqa.
From Verif Require Import Base Regions_Model Graph_Spec LaneSeqs_Model LaneSeqs_Spec LaneSeqs_Proofs.
From Verif Require RuleStates_Proofs.
Import ListNotations.
Local Open Scope nat_scope.

(** ** C37 *)
Lemma path_to_self ongoing start p : lane_path ongoing start start p -> p = [start].
Proof.
  intros (H & La & N & _). destruct p as [|a p]; [discriminate|]. cbn in H. inversion H; subst. destruct p as [|b q]; auto.
  exfalso. inversion N as [|? ? N1 N2]; subst. apply N1. rewrite <- La at 1. rewrite last_two. apply Graph_Proofs.last_in. discriminate.
Qed.

(** The search terminates and finds exactly the paths over distinct lanes whose
    intermediate lanes add up to at most the given length. *)
Theorem find_lane_sequences_finds_exactly_the_paths ongoing len lanes start goal maxl :
  finite_network ongoing len lanes -> In start lanes -> (start <> goal \/ (0 <= maxl)%Q) ->
  exists l, FindLaneSequences ongoing len (length lanes) start goal maxl = Ok l /\
    forall p, In p l <-> lane_path ongoing start goal p /\ (total len (interior p) <= maxl)%Q.
Proof.
  intros (_ & Pos & Cl) Hs D. destruct (Nat.eqb_spec start goal) as [<-|N].
  - assert (M : (0 <= maxl)%Q) by (destruct D; [congruence|auto]). exists [[start]].
    unfold FindLaneSequences. rewrite Nat.eqb_refl. split; auto. intro p. split.
    + intros [<-|[]]. split; [|exact M]. split; [reflexivity|]. split; [reflexivity|]. split; [repeat constructor; intros []|constructor].
    + intros [H _]. apply path_to_self in H. subst. left; auto.
  - destruct (sequences_ok ongoing len Pos lanes start goal maxl Cl Hs N) as (l & E & H & _). eauto.
Qed.
Print Assumptions find_lane_sequences_finds_exactly_the_paths.

(** No sequence is returned twice when no two lanes are joined more than once. *)
Theorem find_lane_sequences_no_repeats ongoing len lanes start goal maxl l :
  finite_network ongoing len lanes -> joined_once ongoing -> In start lanes ->
  FindLaneSequences ongoing len (length lanes) start goal maxl = Ok l -> NoDup l.
Proof.
  intros (_ & Pos & Cl) [J Nd] Hs E. destruct (Nat.eqb_spec start goal) as [<-|N].
  - unfold FindLaneSequences in E. rewrite Nat.eqb_refl in E. inversion E. repeat constructor; intros [].
  - destruct (sequences_ok ongoing len Pos lanes start goal maxl Cl Hs N) as (l' & E' & _ & H). rewrite E in E'. inversion E'; subst l'.
    apply H. intro a. unfold lanes_to_check. apply Confluent_Proofs.NoDup_app_intro; auto.
    intros b X Y. apply in_map_iff in X. apply in_map_iff in Y. destruct X as ((b1 & e1) & E1 & X). destruct Y as ((b2 & e2) & E2 & Y).
    cbn in E1, E2. subst. destruct (J a false e1 true e2 b X Y). discriminate.
Qed.
Print Assumptions find_lane_sequences_no_repeats.

(** Lengths grow the answer: a larger budget loses nothing. *)
Theorem find_lane_sequences_monotone ongoing len lanes start goal m1 m2 l1 l2 p :
  finite_network ongoing len lanes -> In start lanes -> (m1 <= m2)%Q ->
  FindLaneSequences ongoing len (length lanes) start goal m1 = Ok l1 ->
  FindLaneSequences ongoing len (length lanes) start goal m2 = Ok l2 -> In p l1 -> In p l2.
Proof.
  intros (_ & Pos & Cl) Hs M E1 E2 H. destruct (Nat.eqb_spec start goal) as [<-|N].
  - unfold FindLaneSequences in *. rewrite Nat.eqb_refl in *. inversion E1; inversion E2; subst; auto.
  - destruct (sequences_ok ongoing len Pos lanes start goal m1 Cl Hs N) as (l & E & H1 & _). rewrite E1 in E. inversion E; subst l.
    destruct (sequences_ok ongoing len Pos lanes start goal m2 Cl Hs N) as (l & E' & H2 & _). rewrite E2 in E'. inversion E'; subst l.
    apply H2. apply H1 in H. destruct H as [H T]. split; auto. eapply Qle_trans; eauto.
Qed.
Print Assumptions find_lane_sequences_monotone.

(** Two lanes joined at both ends: a ring. *)
Definition ring_ongoing (l : nat) (e : bool) : list (nat * bool) :=
  match l, e with
  | 0, true => [(1, false)] | 0, false => [(1, true)]
  | 1, true => [(0, false)] | 1, false => [(0, true)]
  | _, _ => []
  end.
Definition unit_len (_ : nat) : Q := 1.

(** On a ring the same sequence is returned twice. *)
Theorem find_lane_sequences_no_repeats_refuted :
  exists ongoing len lanes start goal maxl l, finite_network ongoing len lanes /\ two_way ongoing /\ In start lanes /\
    FindLaneSequences ongoing len (length lanes) start goal maxl = Ok l /\ ~ NoDup l.
Proof.
  exists ring_ongoing, unit_len, [0; 1], 0, 1, 10%Q, [[0; 1]; [0; 1]]. split.
  { split; [repeat constructor; cbn; intuition discriminate|]. split; [intro; unfold unit_len; lra|].
    intros a b Ha (e & f & H). unfold meets in H. destruct Ha as [<-|[<-|[]]]; destruct e; cbn in H; destruct H as [H|[]]; inversion H; subst; cbn; auto. }
  split.
  { intros a ea b eb H. unfold meets in *. destruct a as [|[|a]], ea; cbn in H; try contradiction; destruct H as [H|[]]; inversion H; subst; cbn; auto. }
  split; [left; auto|]. split; [vm_compute; reflexivity|]. intro N. inversion N as [|? ? N1 N2]. apply N1. left; auto.
Qed.
Print Assumptions find_lane_sequences_no_repeats_refuted.

(** A diamond: 0 leads to 1 and 2, both lead to 3. *)
Definition diamond (l : nat) (e : bool) : list (nat * bool) :=
  match l, e with
  | 0, true => [(1, false); (2, false)]
  | 1, false => [(0, true)] | 2, false => [(0, true)]
  | 1, true => [(3, false)] | 2, true => [(3, false)]
  | 3, false => [(1, true); (2, true)]
  | _, _ => []
  end.
Definition diamond_len (l : nat) : Q := match l with 2 => 5 | _ => 1 end.
Lemma diamond_net : finite_network diamond diamond_len [0; 1; 2; 3].
Proof.
  split; [repeat constructor; cbn; intuition discriminate|]. split; [intro l; destruct l as [|[|[|l]]]; unfold diamond_len; lra|].
  intros a b _ (e & f & H). unfold meets in H.
  destruct a as [|[|[|[|a]]]], e; cbn in H; try contradiction; repeat destruct H as [H|H]; try contradiction; inversion H; subst; cbn; auto.
Qed.
Lemma diamond_once : joined_once diamond.
Proof.
  split.
  - intros a ea eb ea' eb' b H H'. unfold meets in *.
    destruct a as [|[|[|[|a]]]], ea, ea'; cbn in H, H'; try contradiction;
      repeat destruct H as [H|H]; try contradiction; inversion H; subst; repeat destruct H' as [H'|H']; try contradiction; inversion H'; subst; auto.
  - intros a e. destruct a as [|[|[|[|a]]]], e; cbn; repeat constructor; cbn; intuition discriminate.
Qed.
Lemma diamond_two_way : two_way diamond.
Proof.
  intros a ea b eb H. unfold meets in *.
  destruct a as [|[|[|[|a]]]], ea; cbn in H; try contradiction; repeat destruct H as [H|H]; try contradiction; inversion H; subst; cbn; auto.
Qed.
Lemma diamond_aligned : aligned diamond.
Proof.
  intros a ea b eb H. unfold meets in *.
  destruct a as [|[|[|[|a]]]], ea; cbn in H; try contradiction; repeat destruct H as [H|H]; try contradiction; inversion H; subst; cbn; auto.
Qed.
Example diamond_paths : FindLaneSequences diamond diamond_len 4 0 3 10 = Ok [[0; 1; 3]; [0; 2; 3]]
  /\ FindLaneSequences diamond diamond_len 4 0 3 3 = Ok [[0; 1; 3]]
  /\ FindLaneSequences diamond diamond_len 4 1 2 10 = Ok [[1; 0; 2]; [1; 3; 2]].
Proof. vm_compute. repeat split. Qed.
Example diamond_ok : finite_network diamond diamond_len [0; 1; 2; 3] /\ joined_once diamond /\ two_way diamond /\ aligned diamond.
Proof. exact (conj diamond_net (conj diamond_once (conj diamond_two_way diamond_aligned))). Qed.

(** ** C38 *)
(** Whatever the network, removal keeps the order, invents nothing, never throws, and
    leaves sequences of at most two lanes alone. *)
Theorem u_turn_removal_is_a_filter ongoing len lanes start goal maxl l :
  finite_network ongoing len lanes -> In start lanes ->
  FindLaneSequencesU ongoing len (length lanes) start goal maxl false = Ok l ->
  exists r, FindLaneSequencesU ongoing len (length lanes) start goal maxl true = Ok r /\ RuleStates_Proofs.sublist r l /\
    forall p, In p l -> length p <= 2 -> In p r.
Proof.
  intros (_ & Pos & Cl) Hs E. unfold FindLaneSequencesU in *. destruct (FindLaneSequences ongoing len (length lanes) start goal maxl) as [l'| |] eqn:F; try discriminate.
  cbn [obind] in *. inversion E; subst l'.
  destruct (remove_uturns_spec ongoing l) as (r & Er & S & I).
  { intros s H. destruct (Nat.eqb_spec start goal) as [<-|N].
    - unfold FindLaneSequences in F. rewrite Nat.eqb_refl in F. inversion F; subst. destruct H as [<-|[]]. split; [discriminate|constructor].
    - destruct (sequences_ok ongoing len Pos lanes start goal maxl Cl Hs N) as (l' & E' & H' & _). rewrite F in E'. inversion E'; subst l'.
      apply H' in H. destruct H as [(A & _ & _ & C) _]. split; auto. intros ->. discriminate. }
  exists r. split; auto. split; auto. intros p H L. apply I. split; auto.
  assert (Ne : p <> []). { intros ->. destruct (Nat.eqb_spec start goal) as [<-|N].
    - unfold FindLaneSequences in F. rewrite Nat.eqb_refl in F. inversion F; subst. destruct H as [H|[]]. discriminate.
    - destruct (sequences_ok ongoing len Pos lanes start goal maxl Cl Hs N) as (l' & E' & H' & _). rewrite F in E'. inversion E'; subst l'.
      apply H' in H. destruct H as [(A & _) _]. discriminate. }
  destruct p as [|a [|b [|c q]]]; cbn in *; auto; try congruence; lia.
Qed.
Print Assumptions u_turn_removal_is_a_filter.

(** Where every joint is finish-to-start and no two lanes are joined twice, exactly the
    sequences with a U-turn are removed.  Missing: other joints, see below. *)
Theorem u_turn_removal_exact_partial ongoing len lanes start goal maxl :
  finite_network ongoing len lanes -> joined_once ongoing -> aligned ongoing -> In start lanes -> (start <> goal \/ (0 <= maxl)%Q) ->
  exists r, FindLaneSequencesU ongoing len (length lanes) start goal maxl true = Ok r /\
    forall p, In p r <-> lane_path ongoing start goal p /\ (total len (interior p) <= maxl)%Q /\ ~ u_turn ongoing p.
Proof.
  intros Net J Al Hs D. destruct (find_lane_sequences_finds_exactly_the_paths ongoing len lanes start goal maxl Net Hs D) as (l & E & H).
  destruct (remove_uturns_spec ongoing l) as (r & Er & S & I).
  { intros s X. apply H in X. destruct X as [(A & _ & _ & C) _]. split; auto. intros ->. discriminate. }
  exists r. unfold FindLaneSequencesU. rewrite E. cbn [obind]. split; auto. intro p. rewrite I, H. split.
  - intros [[P T] U]. split; auto. split; auto. intro X. apply (has_uturn_spec ongoing p false J Al) in X; auto; [discriminate|apply P].
  - intros (P & T & U). split; auto. destruct (has_uturn_total ongoing p) as (u & Eu).
    + intros ->. destruct P; discriminate.
    + apply P.
    + rewrite Eu. f_equal. destruct u; auto. exfalso. apply U. apply (has_uturn_spec ongoing p true J Al); auto. apply P.
Qed.
Print Assumptions u_turn_removal_exact_partial.
Example diamond_uturns : FindLaneSequencesU diamond diamond_len 4 0 3 10 true = Ok [[0; 1; 3]; [0; 2; 3]]
  /\ FindLaneSequencesU diamond diamond_len 4 1 2 10 true = Ok [] /\ u_turn diamond [1; 0; 2].
Proof. split; [vm_compute; auto|]. split; [vm_compute; auto|]. exists [], 1, 0, 2, [], false, true, false. cbn. auto. Qed.

(** Lane 0 finishes where lane 1 and, on lane 0's side, lane 2 start. *)
Definition merge_net (l : nat) (e : bool) : list (nat * bool) :=
  match l, e with
  | 0, true => [(1, false)] | 2, false => [(1, false)] | 1, false => [(0, true); (2, false)]
  | _, _ => []
  end.
(** A U-turn that survives: 0, 1 and back out of the start of 1 into 2. *)
Theorem u_turn_kept_refuted :
  exists ongoing len lanes start goal maxl r p, finite_network ongoing len lanes /\ joined_once ongoing /\ two_way ongoing /\ In start lanes /\
    FindLaneSequencesU ongoing len (length lanes) start goal maxl true = Ok r /\ In p r /\ u_turn ongoing p.
Proof.
  exists merge_net, unit_len, [0; 1; 2], 0, 2, 10%Q, [[0; 1; 2]], [0; 1; 2]. split.
  { split; [repeat constructor; cbn; intuition discriminate|]. split; [intro; unfold unit_len; lra|].
    intros a b _ (e & f & H). unfold meets in H.
    destruct a as [|[|[|a]]], e; cbn in H; try contradiction; repeat destruct H as [H|H]; try contradiction; inversion H; subst; cbn; auto. }
  split.
  { split.
    - intros a ea eb ea' eb' b H H'. unfold meets in *.
      destruct a as [|[|[|a]]], ea, ea'; cbn in H, H'; try contradiction;
        repeat destruct H as [H|H]; try contradiction; inversion H; subst; repeat destruct H' as [H'|H']; try contradiction; inversion H'; subst; auto.
    - intros a e. destruct a as [|[|[|a]]], e; cbn; repeat constructor; cbn; intuition discriminate. }
  split.
  { intros a ea b eb H. unfold meets in *.
    destruct a as [|[|[|a]]], ea; cbn in H; try contradiction; repeat destruct H as [H|H]; try contradiction; inversion H; subst; cbn; auto. }
  split; [left; auto|]. split; [vm_compute; reflexivity|]. split; [left; auto|].
  exists [], 0, 1, 2, [], true, false, false. cbn. auto.
Qed.
Print Assumptions u_turn_kept_refuted.

(** Lane 2 is drawn against the direction of travel: 0 finish - 1 start, 1 finish - 2 finish. *)
Definition facing_net (l : nat) (e : bool) : list (nat * bool) :=
  match l, e with
  | 0, true => [(1, false)] | 1, false => [(0, true)] | 1, true => [(2, true)] | 2, true => [(1, true)]
  | _, _ => []
  end.
(** The only path, which has no U-turn, is removed. *)
Theorem u_turn_free_dropped_refuted :
  exists ongoing len lanes start goal maxl p, finite_network ongoing len lanes /\ joined_once ongoing /\ two_way ongoing /\ In start lanes /\
    lane_path ongoing start goal p /\ (total len (interior p) <= maxl)%Q /\ ~ u_turn ongoing p /\
    FindLaneSequencesU ongoing len (length lanes) start goal maxl true = Ok [].
Proof.
  assert (J : joined_once facing_net).
  { split.
    - intros a ea eb ea' eb' b H H'. unfold meets in *.
      destruct a as [|[|[|a]]], ea, ea'; cbn in H, H'; try contradiction;
        repeat destruct H as [H|H]; try contradiction; inversion H; subst; repeat destruct H' as [H'|H']; try contradiction; inversion H'; subst; auto.
    - intros a e. destruct a as [|[|[|a]]], e; cbn; repeat constructor; cbn; intuition discriminate. }
  exists facing_net, unit_len, [0; 1; 2], 0, 2, 10%Q, [0; 1; 2]. split.
  { split; [repeat constructor; cbn; intuition discriminate|]. split; [intro; unfold unit_len; lra|].
    intros a b _ (e & f & H). unfold meets in H.
    destruct a as [|[|[|a]]], e; cbn in H; try contradiction; repeat destruct H as [H|H]; try contradiction; inversion H; subst; cbn; auto. }
  split; [exact J|]. split.
  { intros a ea b eb H. unfold meets in *.
    destruct a as [|[|[|a]]], ea; cbn in H; try contradiction; repeat destruct H as [H|H]; try contradiction; inversion H; subst; cbn; auto. }
  split; [left; auto|]. split.
  { split; [reflexivity|]. split; [reflexivity|]. split; [repeat constructor; cbn; intuition discriminate|].
    constructor; [exists true, false; cbn; auto|]. constructor; [exists true, true; cbn; auto|]. constructor. }
  split; [vm_compute; discriminate|]. split; [|vm_compute; reflexivity].
  intros (u & a & b & c & v & ea & e & ec & Eq & H1 & H2). destruct u as [|x u].
  - cbn in Eq. inversion Eq; subst. unfold meets in *. destruct e; cbn in *.
    + destruct ea; cbn in H1; [|contradiction]. destruct H1 as [H1|[]]. discriminate.
    + destruct H2 as [H2|[]]. discriminate.
  - apply (f_equal (@length nat)) in Eq. cbn in Eq. rewrite app_length in Eq. cbn in Eq. lia.
Qed.
Print Assumptions u_turn_free_dropped_refuted.

(** ** C39 *)
Definition route_shape (start_s end_s : Q) (p : list nat) (rs : list lsrange) : Prop :=
  map lane_id rs = p /\ (exists r rs', rs = r :: rs' /\ s0 (s_range r) = start_s) /\ (exists rs' r, rs = rs' ++ [r] /\ s1 (s_range r) = end_s).

(** One route per lane sequence, over its lanes, from the first position to the second. *)
Theorem derived_routes_follow_the_sequences ongoing len lanes start goal start_s end_s maxl l :
  finite_network ongoing len lanes -> two_way ongoing -> In start lanes -> (0 <= start_s)%Q -> (0 <= end_s)%Q ->
  FindLaneSequences ongoing len (length lanes) start goal maxl = Ok l ->
  exists rs, DeriveLaneSRoutes ongoing len (length lanes) start start_s goal end_s maxl = Ok rs /\
    Forall2 (route_shape start_s end_s) l rs.
Proof.
  intros (_ & Pos & Cl) Tw Hs S0 S1 E. unfold DeriveLaneSRoutes. rewrite E. cbn [obind]. apply routes_of_ok. intros p H.
  assert (P : lane_path ongoing start goal p).
  { destruct (Nat.eqb_spec start goal) as [<-|N].
    - unfold FindLaneSequences in E. rewrite Nat.eqb_refl in E. inversion E; subst. destruct H as [<-|[]].
      split; [reflexivity|]. split; [reflexivity|]. split; [repeat constructor; intros []|constructor].
    - destruct (sequences_ok ongoing len Pos lanes start goal maxl Cl Hs N) as (l' & E' & H' & _). rewrite E in E'. inversion E'; subst l'. apply H'; auto. }
  destruct (route_of_weak ongoing len Pos start goal start_s end_s p Tw S0 S1 P) as (r & rs & Er & M & A & B).
  exists (r :: rs). split; auto. split; auto. split; [exists r, rs; auto|exact B].
Qed.
Print Assumptions derived_routes_follow_the_sequences.

(** Where no two lanes are joined twice: consecutive ranges meet at lane ends that are
    joined, and every intermediate lane of a sequence without U-turns is traversed from
    one end to the other.  Missing: lanes joined twice and U-turns, see below. *)
Theorem derived_routes_contiguous_partial ongoing len lanes start goal start_s end_s maxl :
  finite_network ongoing len lanes -> two_way ongoing -> joined_once ongoing -> In start lanes -> (0 <= start_s)%Q -> (0 <= end_s)%Q ->
  exists rs, DeriveLaneSRoutes ongoing len (length lanes) start start_s goal end_s maxl = Ok rs /\
    forall r, In r rs ->
      consecutive (contiguous ongoing len) r /\
      (exists x q, r = x :: q /\ lane_id x = start /\ s0 (s_range x) = start_s) /\
      (exists q x, r = q ++ [x] /\ lane_id x = goal /\ s1 (s_range x) = end_s) /\
      (~ u_turn ongoing (map lane_id r) -> forall x, In x (removelast (tl r)) -> traversed len x).
Proof.
  intros (_ & Pos & Cl) Tw J Hs S0 S1.
  assert (Q : exists l, FindLaneSequences ongoing len (length lanes) start goal maxl = Ok l /\ forall p, In p l -> lane_path ongoing start goal p).
  { destruct (Nat.eqb_spec start goal) as [<-|N].
    - exists [[start]]. unfold FindLaneSequences. rewrite Nat.eqb_refl. split; auto. intros p [<-|[]].
      split; [reflexivity|]. split; [reflexivity|]. split; [repeat constructor; intros []|constructor].
    - destruct (sequences_ok ongoing len Pos lanes start goal maxl Cl Hs N) as (l' & E' & H' & _). exists l'. split; auto. intros p Hp. apply H'; auto. }
  destruct Q as (l & E & P). unfold DeriveLaneSRoutes. rewrite E. cbn [obind].
  destruct (routes_of_ok ongoing len (fun p r => lane_path ongoing start goal p /\
      consecutive (contiguous ongoing len) r /\ map lane_id r = p /\ (exists x q, r = x :: q /\ s0 (s_range x) = start_s) /\
      (exists q x, r = q ++ [x] /\ s1 (s_range x) = end_s) /\ (~ u_turn ongoing p -> forall x, In x (removelast (tl r)) -> traversed len x))
      start goal start_s end_s l) as (rs & Er & F).
  { intros p H. pose proof (P p H) as Hp. destruct (route_of_ok ongoing len Pos start goal start_s end_s p J Tw S0 S1 Hp) as (r & rs & Er & M & A & B & C & U).
    exists (r :: rs). split; auto. split; auto. split; auto. split; auto. split; [exists r, rs; auto|]. split; auto. }
  exists rs. split; auto. intros r H.
  assert (X : exists p, lane_path ongoing start goal p /\ consecutive (contiguous ongoing len) r /\ map lane_id r = p /\
      (exists x q, r = x :: q /\ s0 (s_range x) = start_s) /\ (exists q x, r = q ++ [x] /\ s1 (s_range x) = end_s) /\
      (~ u_turn ongoing p -> forall x, In x (removelast (tl r)) -> traversed len x)).
  { clear - F H. induction F as [|p r' l rs Hr F IH]; [contradiction|]. destruct H as [->|H]; eauto. }
  destruct X as (p & (Hh & Hl & _ & _) & Co & M & (x & q & Ex & Sx) & (q' & x' & Ex' & Sx') & U). split; auto. split; [|split].
  - exists x, q. split; auto. split; auto. rewrite Ex in M. cbn in M. subst p. cbn in Hh. congruence.
  - exists q', x'. split; auto. split; auto. rewrite Ex' in M. rewrite map_app in M. cbn in M. subst p. rewrite last_last in Hl. auto.
  - rewrite M. auto.
Qed.
Print Assumptions derived_routes_contiguous_partial.
Example diamond_route : exists a b, DeriveLaneSRoutes diamond diamond_len 4 0 (1#2) 3 (1#4) 10 = Ok [a; b] /\
  map lane_id a = [0; 1; 3] /\ map (fun r => (s0 (s_range r), s1 (s_range r))) b = [(1#2, 1); (0, 5); (0, 1#4)]%Q.
Proof. eexists; eexists. split; [vm_compute; reflexivity|]. split; reflexivity. Qed.

(** On a ring, the route leaves lane 0 at its finish and enters lane 1 at its finish. *)
Theorem derived_routes_contiguous_refuted :
  exists ongoing len lanes start goal start_s end_s maxl r rs, finite_network ongoing len lanes /\ two_way ongoing /\ In start lanes /\
    (0 <= start_s <= len start)%Q /\ (0 <= end_s <= len goal)%Q /\
    DeriveLaneSRoutes ongoing len (length lanes) start start_s goal end_s maxl = Ok (r :: rs) /\ ~ consecutive (contiguous ongoing len) r.
Proof.
  exists ring_ongoing, unit_len, [0; 1], 0, 1, (1#2)%Q, (1#2)%Q, 10%Q. eexists. eexists. split.
  { split; [repeat constructor; cbn; intuition discriminate|]. split; [intro; unfold unit_len; lra|].
    intros a b Ha (e & f & H). unfold meets in H. destruct Ha as [<-|[<-|[]]]; destruct e; cbn in H; destruct H as [H|[]]; inversion H; subst; cbn; auto. }
  split.
  { intros a ea b eb H. unfold meets in *. destruct a as [|[|a]], ea; cbn in H; try contradiction; destruct H as [H|[]]; inversion H; subst; cbn; auto. }
  split; [left; auto|]. split; [split; vm_compute; discriminate|]. split; [split; vm_compute; discriminate|]. split; [vm_compute; reflexivity|].
  intro C. inversion C as [| |? ? ? C1 C2]; subst. destruct C1 as (e & f & A & B & M). cbn in A, B, M.
  destruct e; cbn in A; [|discriminate]. destruct f; cbn in B; [|discriminate]. destruct M as [M|[]]. discriminate.
Qed.
Print Assumptions derived_routes_contiguous_refuted.

(** A sequence with a U-turn crosses its middle lane by a range of length zero. *)
Theorem derived_routes_traverse_refuted :
  exists ongoing len lanes start goal start_s end_s maxl r x, finite_network ongoing len lanes /\ two_way ongoing /\ joined_once ongoing /\ In start lanes /\
    DeriveLaneSRoutes ongoing len (length lanes) start start_s goal end_s maxl = Ok [r] /\ In x (removelast (tl r)) /\ ~ traversed len x /\
    s0 (s_range x) = s1 (s_range x).
Proof.
  exists merge_net, unit_len, [0; 1; 2], 0, 2, (1#2)%Q, (1#2)%Q, 10%Q. eexists. exists (mk_lsrange 1 (mk_srange 0 0)). split.
  { split; [repeat constructor; cbn; intuition discriminate|]. split; [intro; unfold unit_len; lra|].
    intros a b _ (e & f & H). unfold meets in H.
    destruct a as [|[|[|a]]], e; cbn in H; try contradiction; repeat destruct H as [H|H]; try contradiction; inversion H; subst; cbn; auto. }
  split.
  { intros a ea b eb H. unfold meets in *.
    destruct a as [|[|[|a]]], ea; cbn in H; try contradiction; repeat destruct H as [H|H]; try contradiction; inversion H; subst; cbn; auto. }
  split.
  { split.
    - intros a ea eb ea' eb' b H H'. unfold meets in *.
      destruct a as [|[|[|a]]], ea, ea'; cbn in H, H'; try contradiction;
        repeat destruct H as [H|H]; try contradiction; inversion H; subst; repeat destruct H' as [H'|H']; try contradiction; inversion H'; subst; auto.
    - intros a e. destruct a as [|[|[|a]]], e; cbn; repeat constructor; cbn; intuition discriminate. }
  split; [left; auto|]. split; [vm_compute; reflexivity|]. split; [left; reflexivity|]. split; [|reflexivity].
  intros (e & A & B). cbn in A, B. destruct e; cbn in A, B; discriminate.
Qed.
Print Assumptions derived_routes_traverse_refuted.
