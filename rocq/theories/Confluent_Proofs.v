From Coq Require Import List Arith Bool Lia Relations.
From Verif Require Import Base Confluent_Model Confluent_Spec.
Import ListNotations.

Lemma mem_true x l : mem x l = true <-> In x l.
Proof.
  unfold mem. rewrite existsb_exists. split.
  - intros (y & H & E). apply Nat.eqb_eq in E. subst. exact H.
  - intro H. exists x. split; [exact H|apply Nat.eqb_refl].
Qed.

(** One confluence step through a given lane list. *)
Definition via (g : geometry) (lanes : list (option nat)) (t : nat) : Prop :=
  exists l e m ls, In (Some l) lanes /\ g_confluent g l e = Some ls /\ In m ls /\ g_segment g m = Some t.

(** What a scan may do to (queue, visited): append the same fresh segments to both. *)
Definition grows (P : nat -> Prop) (st st' : list nat * list nat) : Prop :=
  exists new, fst st' = fst st ++ new /\
    snd st' = rev new ++ snd st /\
    NoDup new /\ (forall x, In x new -> ~ In x (snd st)) /\
    (forall x, In x new -> P x) /\
    (forall x, P x -> In x (snd st')).

Lemma grows_refl (st : list nat * list nat) : grows (fun _ => False) st st.
Proof. exists []. rewrite app_nil_r. simpl. repeat split; auto using NoDup_nil; tauto. Qed.

Lemma NoDup_app_intro {A} (a b : list A) : NoDup a -> NoDup b -> (forall x, In x a -> ~ In x b) -> NoDup (a ++ b).
Proof.
  induction a as [|x a IH]; simpl; intros Ha Hb H; auto.
  inversion Ha; subst. constructor.
  - rewrite in_app_iff. intros [C|C]; [auto|]. exact (H x (or_introl eq_refl) C).
  - apply IH; auto.
Qed.

Lemma grows_trans P1 P2 P st1 st2 st3 : grows P1 st1 st2 -> grows P2 st2 st3 ->
  (forall x, P x <-> P1 x \/ P2 x) -> grows P st1 st3.
Proof.
  intros (n1 & A1 & B1 & C1 & D1 & E1 & F1) (n2 & A2 & B2 & C2 & D2 & E2 & F2) HP.
  exists (n1 ++ n2). rewrite A2, A1, B2, B1, rev_app_distr, <- !app_assoc. repeat split.
  - apply NoDup_app_intro; auto. intros x H1 H2. apply (D2 x H2). rewrite B1, in_app_iff, <- in_rev. auto.
  - intros x H. rewrite in_app_iff in H. destruct H as [H|H]; auto.
    intro K. apply (D2 x H). rewrite B1, in_app_iff. auto.
  - intros x H. rewrite HP. rewrite in_app_iff in H. destruct H as [H|H]; [left|right]; auto.
  - intros x H. rewrite HP in H. destruct H as [H|H].
    + apply F1 in H. rewrite B1 in H. rewrite !in_app_iff in *. tauto.
    + apply F2 in H. rewrite B2, B1 in H. exact H.
Qed.

Lemma grows_ext P P' st st' : (forall x, P x <-> P' x) -> grows P st st' -> grows P' st st'.
Proof.
  intros H (n & A & B & C & D & E & F). exists n. repeat split; auto.
  - intros x Hx. apply H. auto.
  - intros x Hx. apply F. apply H. auto.
Qed.

Lemma scan_set_grows g ls : forall st,
  grows (fun t => exists m, In m ls /\ g_segment g m = Some t) st (scan_set g ls st).
Proof.
  induction ls as [|l ls IH]; intro st; cbn [scan_set].
  - apply (grows_ext (fun _ => False)); [|apply grows_refl]. simpl. firstorder.
  - destruct (g_segment g l) as [s|] eqn:E.
    + destruct (mem s (snd st)) eqn:M.
      * destruct (IH st) as (n & A & B & C & D & F & G).
        exists n. repeat split; auto.
        -- intros x Hx. destruct (F x Hx) as (m & K1 & K2). exists m. simpl; auto.
        -- intros x (m & [->|K1] & K2); [|apply G; eauto].
           rewrite B, in_app_iff. right. apply mem_true. congruence.
      * assert (Hn : ~ In s (snd st)) by (intro K; apply mem_true in K; congruence).
        eapply (grows_trans (fun t => t = s)); [|apply IH|].
        -- exists [s]. simpl. repeat split; auto.
           ++ constructor; [simpl; tauto|constructor].
           ++ intros x [->|[]]; auto.
           ++ intros x [->|[]]; auto.
        -- intro x. simpl. split.
           ++ intros (m & [->|K1] & K2); [left; congruence|right; eauto].
           ++ intros [->|(m & K1 & K2)]; eauto.
    + eapply grows_ext; [|apply IH]. simpl. intro x. split.
      * intros (m & K1 & K2). eauto.
      * intros (m & [->|K1] & K2); [congruence|eauto].
Qed.

Lemma scan_end_grows g l e st :
  grows (fun t => exists ls m, g_confluent g l e = Some ls /\ In m ls /\ g_segment g m = Some t) st (scan_end g l e st).
Proof.
  unfold scan_end. destruct (g_confluent g l e) as [ls|] eqn:E.
  - eapply grows_ext; [|apply scan_set_grows]. intro x. split.
    + intros (m & A & B). exists ls, m. auto.
    + intros (ls' & m & A & B & C). inversion A; subst. eauto.
  - eapply grows_ext; [|apply grows_refl]. intro x. simpl. split; [tauto|].
    intros (ls & m & A & _). discriminate.
Qed.

Lemma scan_lanes_grows g ls : forall st, grows (via g ls) st (scan_lanes g ls st).
Proof.
  induction ls as [|[l|] ls IH]; intro st; cbn [scan_lanes].
  - eapply grows_ext; [|apply grows_refl]. unfold via. simpl. firstorder.
  - eapply (grows_trans (fun t => (exists ls m, g_confluent g l false = Some ls /\ In m ls /\ g_segment g m = Some t)
      \/ (exists ls m, g_confluent g l true = Some ls /\ In m ls /\ g_segment g m = Some t))); [|apply IH|].
    + eapply grows_trans; [apply scan_end_grows|apply scan_end_grows|].
      intro x. reflexivity.
    + intro x. unfold via. simpl. split.
      * intros (l' & e & m & s & [K|K] & A & B & C).
        -- inversion K; subst l'. left. destruct e; [right|left]; eauto 8.
        -- right. eauto 10.
      * intros [[(s & m & A & B & C)|(s & m & A & B & C)]|(l' & e & m & s & K & A & B & C)].
        -- exists l, false, m, s. auto.
        -- exists l, true, m, s. auto.
        -- exists l', e, m, s. auto.
  - eapply grows_ext; [|apply IH]. unfold via. simpl. intro x. split.
    + intros (l & e & m & s & K & A). exists l, e, m, s. auto.
    + intros (l & e & m & s & [K|K] & A); [discriminate|]. exists l, e, m, s. auto.
Qed.

Definition reach1 (g : geometry) : nat -> nat -> Prop := clos_trans nat (confluent g).

(** Invariant of the queue loop: every visited segment is reachable; every
    successor of an already expanded segment is visited; segments waiting in the
    queue are the seed or visited. *)
Section Work.
Variable g : geometry.
Variable U : list nat.
Hypothesis closed : closed_universe g U.
Variable seed : nat.
Hypothesis seed_in : In seed U.

Lemma reach1_in x : reach1 g seed x -> In x U.
Proof.
  intro H. apply clos_trans_tn1_iff in H. induction H; eapply closed; eauto.
Qed.

Record winv (done : list nat) (st : list nat * list nat) : Prop := {
  w_nodup : NoDup (snd st);
  w_reach : forall x, In x (snd st) -> reach1 g seed x;
  w_src : forall x, In x done \/ In x (fst st) -> x = seed \/ In x (snd st);
  w_all : In seed done \/ In seed (fst st);
  w_vis : forall x, In x (snd st) -> In x done \/ In x (fst st);
  w_done : forall x y, In x done -> confluent g x y -> In y (snd st);
  w_len : length done + length (fst st) = S (length (snd st)) }.

Lemma winv_step done s q vis : winv done (s :: q, vis) ->
  winv (s :: done) (scan_lanes g (g_lanes g s) (q, vis)).
Proof.
  intros [N R Sr A V D L]. simpl in *.
  destruct (scan_lanes_grows g (g_lanes g s) (q, vis)) as (new & E1 & E2 & E3 & E4 & E5 & E6).
  simpl in *.
  assert (Hs : s = seed \/ reach1 g seed s).
  { destruct (Sr s) as [H|H]; auto. }
  assert (Hstep : forall x, In x new -> reach1 g seed x).
  { intros x Hx. apply E5 in Hx. destruct Hs as [->|Hs]; [apply t_step; exact Hx|].
    eapply t_trans; [exact Hs|apply t_step; exact Hx]. }
  constructor; simpl.
  - rewrite E2. apply NoDup_app_intro; auto. apply NoDup_rev; auto.
    intros x Hx. apply E4. apply in_rev. exact Hx.
  - intros x Hx. rewrite E2, in_app_iff, <- in_rev in Hx. destruct Hx; auto.
  - intros x Hx. rewrite E1, in_app_iff in Hx. rewrite E2, in_app_iff, <- in_rev.
    destruct Hx as [[<-|Hx]|[Hx|Hx]]; auto.
    + destruct (Sr s); auto.
    + destruct (Sr x); auto.
    + destruct (Sr x); auto.
  - rewrite E1, in_app_iff. destruct A as [A|[A|A]]; auto.
  - intros x Hx. rewrite E1, in_app_iff. rewrite E2, in_app_iff, <- in_rev in Hx.
    destruct Hx as [Hx|Hx]; auto. destruct (V x Hx) as [K|[K|K]]; auto.
  - intros x y [<-|Hx] Hc.
    + apply E6. exact Hc.
    + rewrite E2, in_app_iff. right. eauto.
  - rewrite E1, E2, !app_length, rev_length. simpl in L. lia.
Qed.

Lemma work_ok : forall fuel done st, winv done st ->
  length done + fuel >= S (length U) ->
  exists v, work g fuel st = Ok v /\ NoDup v /\ forall x, In x v <-> reach1 g seed x.
Proof.
  induction fuel as [|f IH]; intros done [q vis] W F; cbn [work fst snd].
  - destruct q as [|s q].
    + exists vis. split; [reflexivity|].
      split; [apply (w_nodup _ _ W)|]. intro x. split; [apply (w_reach _ _ W)|].
      intro H. apply clos_trans_tn1_iff in H.
      destruct W as [_ _ _ A V D _]. simpl in *.
      assert (A' : In seed done) by tauto.
      induction H as [y H|y z H1 H2 IH2].
      * eapply D; eauto.
      * eapply D; [|exact H1]. destruct (V y IH2); [auto|contradiction].
    + exfalso. destruct W as [N R _ _ _ _ L]. simpl in *.
      assert (length vis <= length U).
      { apply NoDup_incl_length; [exact N|]. intros x Hx. apply reach1_in. auto. }
      lia.
  - destruct q as [|s q].
    + exists vis. split; [reflexivity|].
      split; [apply (w_nodup _ _ W)|]. intro x. split; [apply (w_reach _ _ W)|].
      intro H. apply clos_trans_tn1_iff in H.
      destruct W as [_ _ _ A V D _]. simpl in *.
      assert (A' : In seed done) by tauto.
      induction H as [y H|y z H1 H2 IH2].
      * eapply D; eauto.
      * eapply D; [|exact H1]. destruct (V y IH2); [auto|contradiction].
    + apply (IH (s :: done)); [apply winv_step; exact W|simpl; lia].
Qed.

Lemma find_ok fuel : fuel > length U ->
  exists v, FindConfluentSegments g fuel seed = Ok v /\ NoDup v /\ forall x, In x v <-> reach1 g seed x.
Proof.
  intro F. unfold FindConfluentSegments. apply (work_ok fuel []); [|simpl; lia].
  constructor; simpl; try tauto; auto. constructor.
  intros x [[]|[<-|[]]]; auto.
Qed.
End Work.

(** * Partition *)
Section Analyze.
Variable g : geometry.
Variable U : list nat.
Hypothesis closed : closed_universe g U.
Variable fuel : nat.
Hypothesis fuel_ok : fuel > length U.
Hypothesis sym : forall s t, confluent g s t -> confluent g t s.
Hypothesis self : forall s, In s U -> confluent g s s.

Lemma connected_sym x y : connected g x y -> connected g y x.
Proof. induction 1; [apply rt_step; auto|apply rt_refl|eapply rt_trans; eauto]. Qed.

Lemma reach1_connected x y : In x U -> (reach1 g x y <-> connected g x y).
Proof.
  intro HU. split.
  - intro H. induction H; [apply rt_step; auto|].
    assert (HY : In y U) by (eapply reach1_in; eauto).
    eapply rt_trans; [apply IHclos_trans1|apply IHclos_trans2]; auto.
  - intro H. apply clos_rt_rtn1 in H. induction H as [|y z H1 H2 IH].
    + apply t_step. apply self. exact HU.
    + eapply t_trans; [exact IH|apply t_step; exact H1].
Qed.

Lemma connected_in x y : In x U -> connected g x y -> In y U.
Proof. intros H C. apply (reach1_in g U closed x H). apply reach1_connected; auto. Qed.

(** State invariant: the components so far are the classes of the segments seen. *)
Record ainv (seen : list nat) (st : list (list nat) * list nat) : Prop := {
  a_vis : forall x, In x (snd st) <-> exists c, In c (fst st) /\ In x c;
  a_class : forall c, In c (fst st) -> exists s, In s seen /\ In s c /\ (forall x, In x c <-> connected g s x);
  a_seen : forall s, In s seen -> In s (snd st);
  a_nd : forall c, In c (fst st) -> NoDup c;
  a_disj : ForallOrdPairs (fun c d => forall x, In x c -> ~ In x d) (fst st) }.

Lemma FOP_app {A} (R : A -> A -> Prop) l x : ForallOrdPairs R l -> (forall y, In y l -> R y x) -> ForallOrdPairs R (l ++ [x]).
Proof.
  induction l as [|a l IH]; simpl; intros H K.
  - constructor; constructor.
  - inversion H; subst. constructor.
    + rewrite Forall_app. split; auto.
    + apply IH; auto.
Qed.

Lemma analyze_junction_ok segs : forall seen st, ainv seen st -> incl segs U -> incl seen U ->
  exists st', analyze_junction g fuel segs st = Ok st' /\ ainv (rev segs ++ seen) st'.
Proof.
  induction segs as [|s segs IH]; intros seen [cs vis] I HU HS; cbn [analyze_junction].
  - exists (cs, vis). auto.
  - cbn [rev]. rewrite <- app_assoc. cbn [app snd fst].
    destruct (mem s vis) eqn:M.
    + apply IH; [|intros x Hx; apply HU; simpl; auto|].
      * apply mem_true in M. destruct I as [A B C D E]. simpl in *. constructor; simpl; auto.
        -- intros c Hc. destruct (B c Hc) as (x & ? & ? & ?). exists x; auto.
        -- intros x [<-|Hx]; auto.
      * intros x [<-|Hx]; [apply HU; simpl; auto|auto].
    + assert (Hs : In s U) by (apply HU; simpl; auto).
      destruct (find_ok g U closed s Hs fuel fuel_ok) as (v & E & N & R). rewrite E. cbn [obind].
      assert (M' : ~ In s vis) by (intro K; apply mem_true in K; congruence).
      apply IH; [|intros x Hx; apply HU; simpl; auto|intros x [<-|Hx]; auto].
      assert (R' : forall x, In x v <-> connected g s x) by (intro x; rewrite R; apply reach1_connected; auto).
      destruct I as [A B C D F]. simpl in *. constructor; simpl.
      * intro x. rewrite in_app_iff, A. split.
        -- intros [H|(c & H1 & H2)]; [exists v|exists c]; rewrite in_app_iff; simpl; auto.
        -- intros (c & H1 & H2). rewrite in_app_iff in H1. destruct H1 as [H1|[<-|[]]]; eauto.
      * intros c Hc. rewrite in_app_iff in Hc. destruct Hc as [Hc|[<-|[]]].
        -- destruct (B c Hc) as (x & ? & ? & ?). exists x; auto.
        -- exists s. split; auto. split; auto. apply R'. apply rt_refl.
      * intros x [<-|Hx]; rewrite in_app_iff; [left; apply R'; apply rt_refl|auto].
      * intros c Hc. rewrite in_app_iff in Hc. destruct Hc as [Hc|[<-|[]]]; auto.
      * apply FOP_app; auto. intros c Hc x H1 H2. apply M'. apply A. exists c. split; auto.
        destruct (B c Hc) as (y & K1 & K2 & K3). apply K3. apply K3 in H1. apply R' in H2.
        eapply rt_trans; [exact H1|apply connected_sym; exact H2].
Qed.

Lemma analyze_junctions_ok js : forall seen st, ainv seen st ->
  (forall segs, In (Some segs) js -> incl segs U) -> incl seen U ->
  exists st' seen', analyze_junctions g fuel js st = Ok st' /\ ainv seen' st' /\
    (forall x, In x seen' <-> In x seen \/ exists segs, In (Some segs) js /\ In x segs).
Proof.
  induction js as [|[segs|] js IH]; intros seen st I HJ HS; cbn [analyze_junctions].
  - exists st, seen. split; [reflexivity|]. split; [exact I|]. intro x. split; [auto|]. intros [H|(s & [] & _)]; auto.
  - destruct (analyze_junction_ok segs seen st I) as (st1 & E1 & I1); [apply HJ; simpl; auto|auto|].
    rewrite E1. cbn [obind].
    destruct (IH (rev segs ++ seen) st1 I1) as (st2 & seen2 & E2 & I2 & M2).
    + intros x Hx. apply HJ. simpl. auto.
    + intros x Hx. rewrite in_app_iff, <- in_rev in Hx. destruct Hx as [Hx|Hx]; auto.
      eapply HJ; [left; reflexivity|exact Hx].
    + exists st2, seen2. split; [exact E2|]. split; [exact I2|]. intro x. split.
      * intro H. apply M2 in H. rewrite in_app_iff, <- in_rev in H. simpl.
        destruct H as [[H|H]|(s & H1 & H2)]; eauto.
      * intro H. apply M2. rewrite in_app_iff, <- in_rev. simpl in H.
        destruct H as [H|(s & [K|H1] & H2)]; auto.
        -- inversion K; subst. auto.
        -- right. eauto.
  - destruct (IH seen st I) as (st2 & seen2 & E2 & I2 & M2); auto.
    + intros x Hx. apply HJ. simpl. auto.
    + exists st2, seen2. split; [exact E2|]. split; [exact I2|]. intro x. split.
      * intro H. apply M2 in H. simpl. destruct H as [H|(s & H1 & H2)]; eauto.
      * intro H. apply M2. destruct H as [H|(s & [K|H1] & H2)]; auto; [discriminate|right; eauto].
Qed.

Lemma analyze_ok : (forall s, in_geometry g s -> In s U) ->
  exists cs, AnalyzeConfluentSegments g fuel = Ok cs /\
    ForallOrdPairs (fun c d => forall x, In x c -> ~ In x d) cs /\
    (forall s, in_geometry g s -> exists c, In c cs /\ In s c) /\
    (forall c, In c cs -> NoDup c /\ exists s, in_geometry g s /\ In s c) /\
    (forall c x, In c cs -> In x c -> forall y, In y c <-> connected g x y).
Proof.
  intro HU. unfold AnalyzeConfluentSegments.
  destruct (analyze_junctions_ok (g_junctions g) [] ([], [])) as (st & seen & E & I & M).
  - constructor; simpl; try tauto.
    + intro x; split; [tauto|]. intros (c & [] & _).
    + constructor.
  - intros segs H x Hx. apply HU. exists segs. auto.
  - intros x [].
  - rewrite E. cbn [omap]. exists (fst st). destruct I as [A B C D F].
    assert (M' : forall x, In x seen <-> in_geometry g x).
    { intro x. rewrite M. unfold in_geometry. simpl. split; [intros [[]|H]; auto|auto]. }
    repeat split; auto.
    + intros s Hs. apply A. apply C. apply M'. exact Hs.
    + destruct (B c H) as (s & K1 & K2 & _). exists s. split; [apply M'; auto|auto].
    + intro Hy. destruct (B c H) as (s & K1 & K2 & K3). apply K3 in H0. apply K3 in Hy.
      eapply rt_trans; [apply connected_sym; exact H0|exact Hy].
    + intro Hy. destruct (B c H) as (s & K1 & K2 & K3). apply K3. apply K3 in H0.
      eapply rt_trans; eauto.
Qed.
End Analyze.
