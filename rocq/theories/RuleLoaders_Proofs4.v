(** Lemmas for the loader of phase rings over right of way rules. *)
From Coq Require Import String List Bool Arith ZArith Lia.
From Verif Require Import Base Maps Loaders_Model Loaders_Spec Loaders_Proofs Loaders_Proofs2 Loaders_Proofs3 Loaders_Proofs4 Loaders_Proofs5 UniqueId_Model RuleLoaders_Model RuleLoaders_Spec RuleLoaders_Proofs RuleLoaders_Proofs2 RuleLoaders_Proofs3.
Import ListNotations.
Local Open Scope string_scope.

Section Transitions.
Context {D : Type} (to_double : string -> option D) (null_text : option string).
(** The transitions only use the ids of the phases. *)
Definition as_lphase (p : old_phase) : lphase (R := unit) := mk_lphase (op_id p) [] (op_bulbs p).
Lemma old_exists : forall ps id, old_phase_exists ps id = phase_exists (map as_lphase ps) id.
Proof. intros ps id. unfold old_phase_exists, phase_exists. induction ps as [|p ps IH]; cbn; [reflexivity|]. rewrite IH. reflexivity. Qed.
Lemma old_next_eq : forall ps n, old_next to_double null_text ps n = build_next to_double null_text (map as_lphase ps) n.
Proof. intros ps n. unfold old_next, build_next. destruct (is_map n); [|reflexivity]. cbn. destruct (need n "ID"); cbn; auto. destruct (as_id null_text a); cbn; auto. rewrite old_exists. reflexivity. Qed.
Lemma each_ok_ext {A B} : forall (f g : A -> outcome B) l, (forall x, f x = g x) -> each_ok f l = each_ok g l.
Proof. intros f g l H. induction l as [|x l IH]; cbn; [reflexivity|]. rewrite H, IH. reflexivity. Qed.
Lemma obind_ext {A B} : forall (x : outcome A) (f g : A -> outcome B), (forall a, f a = g a) -> obind x f = obind x g.
Proof. intros [a| |] f g H; cbn; auto. Qed.
Lemma old_nexts_eq : forall ps l acc, old_nexts to_double null_text ps l acc = build_nexts to_double null_text (map as_lphase ps) l acc.
Proof.
  intros ps l. induction l as [|[k v] l IH]; intro acc; cbn [old_nexts build_nexts]; [reflexivity|]. destruct (as_id null_text k); cbn [obind]; auto. rewrite old_exists.
  rewrite (each_ok_ext _ _ (elements v) (old_next_eq ps)). destruct (phase_exists (map as_lphase ps) a); cbn [throw_unless]; [|reflexivity]. destruct (is_seq v); cbn [throw_unless]; [|reflexivity].
  apply obind_ext. intro ns. apply IH.
Qed.
Lemma OldBuildNextPhases_eq : forall ps n, OldBuildNextPhases to_double null_text ps n = BuildNextPhases to_double null_text (map as_lphase ps) n.
Proof. intros ps n. unfold OldBuildNextPhases, BuildNextPhases. destruct (get n "PhaseTransitionGraph") as [gn| |]; cbn [obind]; auto. rewrite old_nexts_eq. reflexivity. Qed.
Lemma as_lphase_ids : forall ps, map lp_id (map as_lphase ps) = map op_id ps.
Proof. intro ps. rewrite map_map. reflexivity. Qed.
End Transitions.

Section OldRings.
Context {D : Type} (to_double : string -> option D) (null_text : option string).
Notation text := (text null_text).
Notation ident := (ident null_text).
Notation ident_at := (ident_at null_text).
Notation rowrule := (rowrule (D := D)).
Notation rulebook := (rulebook (D := D)).
Notation traffic_light := (traffic_light (D := D)).

(** ** The rules of the ring *)
Lemma get_row_rules_ok : forall (b : rulebook) l acc, NoDup (map fst (bk_rows b)) -> NoDup (map fst acc) -> (forall id r, In (id, r) acc -> In (id, r) (bk_rows b)) -> forall rs,
  get_row_rules null_text b l acc = Ok rs ->
  NoDup (map fst rs) /\ (forall id r, In (id, r) rs <-> In (id, r) acc \/ exists e, In e l /\ text e id /\ In (id, r) (bk_rows b)) /\
  (forall e, In e l -> exists id r, ident e id /\ In (id, r) (bk_rows b)).
Proof.
  intros b l. induction l as [|n l IH]; intros acc Nb Na Inc rs H; cbn [get_row_rules] in H.
  - injection H as <-. split; auto. split; [|intros e []]. intros id vs. split; auto. intros [I|(e & [] & _)]. exact I.
  - rewrite obind_ok in H. destruct H as (id & Ei & H). rewrite obind_ok in H. destruct H as (st & Es & H).
    rewrite conv_ok in Es. apply (mfind_in _ seqb_ok) in Es. rewrite as_id_ok in Ei. pose proof Ei as [Et _].
    assert (U : forall vs, In (id, vs) (bk_rows b) -> vs = st).
    { intros vs I. apply (mfind_nodup _ seqb_ok) in I; auto. apply (mfind_nodup _ seqb_ok) in Es; auto. congruence. }
    set (acc' := if mhas String.eqb id acc then acc else (acc ++ [(id, st)])%list) in *.
    assert (A : forall i vs, In (i, vs) acc' <-> In (i, vs) acc \/ (i = id /\ vs = st)).
    { intros i vs. unfold acc'. destruct (mhas String.eqb id acc) eqn:Hh.
      - split; auto. intros [I|[-> ->]]; auto. apply (mhas_true _) in Hh. destruct Hh as (v & Hv). apply (mfind_in _ seqb_ok) in Hv.
        pose proof (U _ (Inc _ _ Hv)) as ->. exact Hv.
      - rewrite in_app_iff. cbn. split; [intros [I|[E|[]]]; auto; injection E as <- <-; auto|intros [I|[-> ->]]; auto]. }
    specialize (IH acc' Nb). destruct IH with (rs := rs) as (N & I & P); auto.
    + unfold acc'. destruct (mhas String.eqb id acc) eqn:Hh; auto. rewrite map_app. cbn.
      apply (NoDup_Add (a := id) (l := map fst acc)); [rewrite <- (app_nil_r (map fst acc)) at 1; apply Add_app|]. split; auto.
      rewrite <- (mhas_in _ seqb_ok). rewrite Hh. discriminate.
    + intros i vs. rewrite A. intros [J|[-> ->]]; auto.
    + split; auto. split.
      * intros i vs. rewrite I, A. split.
        -- intros [[J|[-> ->]]|(e & J & T & B)]; auto.
           ++ right. exists n. split; [left; auto|]. auto.
           ++ right. exists e. split; [right; auto|]. auto.
        -- intros [J|(e & [<-|J] & T & B)]; auto.
           ++ left. right. assert (i = id) by exact (text_fun null_text _ _ _ T Et). subst i. split; auto.
           ++ right. exists e. auto.
      * intros e [<-|J]; [exists id, st; auto|]. apply P. exact J.
Qed.
Lemma get_row_rules_complete : forall (b : rulebook) l acc, NoDup (map fst (bk_rows b)) -> (forall e, In e l -> exists id r, ident e id /\ In (id, r) (bk_rows b)) ->
  exists rs, get_row_rules null_text b l acc = Ok rs.
Proof.
  intros b l. induction l as [|n l IH]; intros acc Nb H; cbn [get_row_rules]; [eauto|].
  destruct (H n (or_introl eq_refl)) as (id & vs & Ei & I). rewrite <- as_id_ok in Ei. rewrite Ei. cbn [obind].
  apply (mfind_nodup _ seqb_ok) in I; auto. rewrite I. cbn [conv obind]. apply IH; auto. intros e J. apply H. right. exact J.
Qed.
Lemma get_row_rules_no_ub : forall (b : rulebook) l acc, get_row_rules null_text b l acc <> UB.
Proof.
  intros b l. induction l as [|n l IH]; intros acc; cbn [get_row_rules]; [discriminate|]. apply obind_no_ub; [apply as_id_no_ub|intros ? _]. apply obind_no_ub; [apply conv_no_ub|intros ? _]. apply IH.
Qed.
Lemma GetRules_ok : forall (b : rulebook) n rn rs, NoDup (map fst (bk_rows b)) -> get n "Rules" = Ok rn -> GetRules null_text b rn = Ok rs ->
  NoDup (map fst rs) /\ (forall id r, In (id, r) rs <-> row_listed null_text b n id r) /\
  exists l, entry n "Rules" (Seq l) /\ forall e, In e l -> exists id r, ident e id /\ In (id, r) (bk_rows b).
Proof.
  intros b n rn rs Nb G H. unfold GetRules in H. rewrite throw_unless_ok, is_seq_iff in H. destruct H as [E H].
  rewrite E in G, H. apply get_entry in G; [|discriminate]. cbn [items] in H. apply get_row_rules_ok in H; auto; [|constructor|intros ? ? []]. destruct H as (N & I & P). split; auto. split.
  - intros id vs. rewrite I. split.
    + intros [[]|(e & J & T & B)]. exists (elements rn), e. auto.
    + intros (l & e & El & J & T & B). right. exists e. pose proof (entry_functional _ _ _ _ G El) as F. injection F as <-. auto.
  - exists (elements rn). split; auto.
Qed.

(** ** Default states *)
Lemma rowtype_eqb_iff : forall a b, rowtype_eqb a b = true <-> a = b.
Proof. intros [] []; cbn; split; congruence. Qed.
Lemma find_first : forall (r : rowrule) t, (exists x, find (fun s => rowtype_eqb (fst (snd s)) t) (rw_states r) = Some x /\ first_of r t (fst x)) \/
  (find (fun s => rowtype_eqb (fst (snd s)) t) (rw_states r) = None /\ forall x, In x (rw_states r) -> fst (snd x) <> t).
Proof.
  intros r t. unfold first_of. induction (rw_states r) as [|[s [t' y]] l IH].
  - right. split; [reflexivity|intros x []].
  - cbn [find fst snd]. destruct (rowtype_eqb t' t) eqn:E.
    + rewrite rowtype_eqb_iff in E. subst t'. left. exists (s, (t, y)). split; [reflexivity|]. exists [], y, l. split; [reflexivity|]. intros x [].
    + assert (Ne : t' <> t) by (rewrite <- rowtype_eqb_iff; congruence). destruct IH as [(x & F & l1 & y' & l2 & El & H)|[F H]].
      * left. exists x. split; [exact F|]. exists ((s, (t', y)) :: l1), y', l2. rewrite El. split; [reflexivity|]. intros z [<-|I]; [exact Ne|apply H; exact I].
      * right. split; [exact F|]. intros x [<-|I]; [exact Ne|apply H; exact I].
Qed.
Lemma first_fun : forall (r : rowrule) t s s', first_of r t s -> first_of r t s' -> s = s'.
Proof.
  intros r t s s' (l1 & y & l2 & E & H) (m1 & y' & m2 & E' & H'). rewrite E in E'. clear E. revert m1 E' H'. induction l1 as [|a l1 IH]; intros [|c m1] E' H'; cbn in E'; injection E'; intros; subst.
  - reflexivity.
  - exfalso. apply (H' (s, (t, y))); [left; reflexivity|reflexivity].
  - exfalso. apply (H (s', (t, y'))); [left; reflexivity|reflexivity].
  - apply (IH ltac:(intros x I; apply H; right; exact I) m1); [assumption|]. intros x I. apply H'. right. exact I.
Qed.
Lemma first_in : forall (r : rowrule) t s, first_of r t s -> exists x, In (s, x) (rw_states r) /\ fst x = t.
Proof. intros r t s (l1 & y & l2 & E & _). exists (t, y). split; [|reflexivity]. rewrite E. apply in_or_app. right. left. reflexivity. Qed.
Lemma default_row_ok : forall (r : rowrule) s, default_row_state (rw_states r) = Ok s <-> default_of r s.
Proof.
  intros r s. unfold default_row_state, default_of.
  destruct (find_first r Stop) as [(x & -> & F)|[-> N1]].
  - split; [intros [= <-]; auto|]. intros [G|[[_ N]|[_ N]]]; [rewrite (first_fun _ _ _ _ F G); reflexivity| |];
      destruct (first_in _ _ _ F) as ([t y] & I & E); cbn in E; subst; exfalso; [exact (N _ I eq_refl)|specialize (N _ I); discriminate].
  - destruct (find_first r StopThenGo) as [(x & -> & F)|[-> N2]].
    + split; [intros [= <-]; auto|]. intros [G|[[G _]|[_ N]]].
      * destruct (first_in _ _ _ G) as ([t y] & I & E). cbn in E. subst t. destruct (N1 _ I eq_refl).
      * rewrite (first_fun _ _ _ _ F G). reflexivity.
      * destruct (first_in _ _ _ F) as ([t y] & I & E). cbn in E. subst t. specialize (N _ I). discriminate.
    + assert (A : forall x, In x (rw_states r) -> fst (snd x) = Go) by (intros [i [t y]] I; specialize (N1 _ I); specialize (N2 _ I); cbn in *; destruct t; congruence).
      destruct (find_first r Go) as [(x & -> & F)|[-> N3]].
      * split; [intros [= <-]; auto|]. intros [G|[[G _]|[G _]]].
        -- destruct (first_in _ _ _ G) as ([t y] & I & E). cbn in E. subst t. destruct (N1 _ I eq_refl).
        -- destruct (first_in _ _ _ G) as ([t y] & I & E). cbn in E. subst t. destruct (N2 _ I eq_refl).
        -- rewrite (first_fun _ _ _ _ F G). reflexivity.
      * split; [discriminate|]. intros [G|[[G _]|[G _]]]; destruct (first_in _ _ _ G) as ([t y] & I & E); cbn in E; subst t; exfalso; [exact (N1 _ I eq_refl)|exact (N2 _ I eq_refl)|exact (N3 _ I eq_refl)].
Qed.
Lemma default_row_exists : forall r : rowrule, rw_states r <> [] -> exists s, default_row_state (rw_states r) = Ok s.
Proof.
  intros r Ne. unfold default_row_state. destruct (find_first r Stop) as [(x & -> & F)|[-> N1]]; [eauto|]. destruct (find_first r StopThenGo) as [(x & -> & F)|[-> N2]]; [eauto|].
  destruct (find_first r Go) as [(x & -> & F)|[-> N3]]; [eauto|]. exfalso. destruct (rw_states r) as [|[s [t y]] l]; [congruence|].
  specialize (N1 _ (or_introl eq_refl)). specialize (N2 _ (or_introl eq_refl)). specialize (N3 _ (or_introl eq_refl)). cbn in *. destruct t; congruence.
Qed.
Lemma default_in : forall (r : rowrule) s, default_of r s -> exists x, In (s, x) (rw_states r).
Proof. intros r s [F|[[F _]|[F _]]]; destruct (first_in _ _ _ F) as (x & I & _); eauto. Qed.
Lemma row_defaults_ok : forall (rs : list (string * rowrule)) d, default_row_states rs = Ok d <-> Forall2 (fun r p => fst p = fst r /\ default_of (snd r) (snd p)) rs d.
Proof.
  intros rs d. unfold default_row_states. rewrite each_ok_ok. apply Forall2_iff. intros r p. rewrite omap_ok. split.
  - intros (v & E & <-). cbn. split; auto. apply default_row_ok. exact E.
  - intros [E F]. exists (snd p). split; [apply default_row_ok; exact F|]. rewrite <- E. destruct p; reflexivity.
Qed.
Lemma row_defaults_exist : forall rs : list (string * rowrule), (forall id r, In (id, r) rs -> rw_states r <> []) -> exists d, default_row_states rs = Ok d.
Proof.
  intro rs. induction rs as [|[id r] rs IH]; intro H; [exists []; reflexivity|]. unfold default_row_states in *. cbn [each_ok fst snd].
  destruct (default_row_exists r (H id r (or_introl eq_refl))) as (s & ->). cbn [omap obind]. destruct IH as (d & ->); [intros; eapply H; right; eauto|]. cbn. eauto.
Qed.
Lemma row_defaults_keys : forall (rs : list (string * rowrule)) d, default_row_states rs = Ok d -> map fst d = map fst rs.
Proof. intros rs d H. apply row_defaults_ok in H. induction H as [|r p l m [E _] F IH]; cbn; congruence. Qed.
Lemma row_defaults_find : forall (rs : list (string * rowrule)) d, default_row_states rs = Ok d -> NoDup (map fst rs) ->
  forall id s, mfind String.eqb id d = Some s <-> exists r, In (id, r) rs /\ default_of r s.
Proof.
  intros rs d H N id s. pose proof (row_defaults_keys _ _ H) as K. apply row_defaults_ok in H.
  assert (Nd : NoDup (map fst d)) by (rewrite K; exact N).
  transitivity (In (id, s) d). { split; [apply (mfind_in _ seqb_ok)|]. intro I. apply (mfind_nodup _ seqb_ok); auto. }
  clear K N Nd. induction H as [|r p l m [F G] H IH].
  - split; [intros []|intros (r & [] & _)].
  - cbn [In]. rewrite IH. split.
    + intros [->|(r' & A & B)]; [|eauto]. exists (snd r). cbn in *. split; auto. left. destruct r. cbn in *. congruence.
    + intros (r' & [->|A] & B); [|right; eauto]. left. cbn in F, G. destruct p as [i t]. cbn in *. subst i. f_equal.
      apply default_row_ok in B. apply default_row_ok in G. congruence.
Qed.

(** ** Written states *)
Lemma set_row_states_ok : forall l acc acc', set_row_states null_text l acc = Ok acc' ->
  map fst acc' = map fst acc /\
  (forall id, (not_written null_text l id /\ mfind String.eqb id acc' = mfind String.eqb id acc) \/
              (exists s, last_written null_text l id s /\ mfind String.eqb id acc' = Some s)) /\
  (forall p, In p l -> exists id s, ident (fst p) id /\ ident (snd p) s /\ In id (map fst acc)).
Proof.
  intro l. induction l as [|[kn vn] l IH]; intros acc acc' H; cbn [set_row_states] in H.
  - injection H as <-. split; auto. split; [|intros p []]. intro id. left. split; auto. intros p [].
  - rewrite obind_ok in H. destruct H as (id & E1 & H). rewrite obind_ok in H. destruct H as (s & E2 & H). rewrite throw_unless_ok in H. destruct H as [E5 H].
    rewrite as_id_ok in E1. rewrite as_id_ok in E2.
    apply IH in H; auto. destruct H as (K & L & P). pose proof E1 as [T _]. pose proof E2 as [T2 _].
    assert (Km : map fst (mset String.eqb id s acc) = map fst acc) by (rewrite (mset_keys _ seqb_ok), E5; auto).
    split; [congruence|]. split.
    + intro i. destruct (L i) as [[N M]|(s' & (l1 & l2 & k & w & El & Tk & Tw & N) & F)].
      * destruct (string_dec id i) as [->|Ne].
        -- right. exists s. split; [exists [], l, kn, vn; auto|]. rewrite M. apply (mfind_set_eq _ seqb_ok).
        -- left. split; [|rewrite M; apply (mfind_set_neq _ seqb_ok); exact Ne]. intros p [<-|J]; [|apply N; exact J]. cbn. intro T'. apply Ne. exact (text_fun null_text _ _ _ T T').
      * right. exists s'. split; auto. exists ((kn, vn) :: l1), l2, k, w. subst l. auto.
    + intros p [<-|J]; [exists id, s; split; auto; split; auto; apply (mhas_in _ seqb_ok); exact E5|]. rewrite <- Km. apply P. exact J.
Qed.
Lemma set_row_states_complete : forall l acc, (forall p, In p l -> exists id s, ident (fst p) id /\ ident (snd p) s /\ In id (map fst acc)) -> exists acc', set_row_states null_text l acc = Ok acc'.
Proof.
  intro l. induction l as [|[kn vn] l IH]; intros acc H; cbn [set_row_states]; [eauto|].
  destruct (H (kn, vn) (or_introl eq_refl)) as (id & s & E1 & E2 & E3). cbn in E1, E2.
  rewrite <- as_id_ok in E1. rewrite <- as_id_ok in E2. rewrite E1. cbn [obind]. rewrite E2. cbn [obind]. apply (mhas_in _ seqb_ok) in E3. rewrite E3. cbn [throw_unless]. apply IH.
  intros p I. rewrite (mset_keys _ seqb_ok), E3. apply H. right. exact I.
Qed.
Lemma set_row_states_no_ub : forall l acc, set_row_states null_text l acc <> UB.
Proof.
  intro l. induction l as [|[kn vn] l IH]; intros acc; cbn [set_row_states]; [discriminate|].
  apply obind_no_ub; [apply as_id_no_ub|intros ? _]. apply obind_no_ub; [apply as_id_no_ub|intros ? _]. apply throw_unless_no_ub. intros _. apply IH.
Qed.

(** ** Values of the derived rules *)
Lemma row_value_keys : forall id t y gs, dkeys (row_value id t y gs).
Proof. intros. unfold dkeys, row_value. cbn [dv_rules dv_ids map fst]. split; repeat constructor; cbn; intuition discriminate. Qed.
Lemma row_discrete_ok : forall (b : rulebook) id s p, paired b ->
  row_discrete_state b id s = Ok p <->
  fst p = "Right-Of-Way Rule Type/" ++ id /\ exists r x, In (id, r) (bk_rows b) /\ In (s, x) (rw_states r) /\ derives_value r (s, x) (snd p).
Proof.
  intros b id s p (N1 & N2 & P). unfold row_discrete_state. split.
  - intro H. rewrite obind_ok in H. destruct H as (d & E1 & H). rewrite obind_ok in H. destruct H as (r & E2 & H). rewrite obind_ok in H. destruct H as (x & E3 & H).
    rewrite throw_unless_ok in H. destruct H as [_ H]. injection H as <-. cbn [fst snd]. split; [reflexivity|].
    rewrite conv_ok in E2. rewrite conv_ok in E3. apply (mfind_in _ seqb_ok) in E2. apply (mfind_in _ seqb_ok) in E3. exists r, x. split; auto. split; auto. apply value_iff. cbn [fst snd]. destruct (P _ _ E2) as (-> & _). reflexivity.
  - intros (F & r & x & I & J & V). destruct (P _ _ I) as (Ei & _ & Ns & d & K & Dd).
    apply (mfind_nodup _ seqb_ok _ _ _ N1) in I. apply (mfind_nodup _ seqb_ok _ _ _ N2) in K. pose proof J as J'. apply (mfind_nodup _ seqb_ok _ _ _ Ns) in J.
    change (GetRuleIdFrom RightOfWayRuleTypeId id) with ("Right-Of-Way Rule Type/" ++ id). rewrite K. cbn [conv obind]. rewrite I. cbn [conv obind]. rewrite J. cbn [conv obind].
    apply value_iff in V. cbn [fst snd] in V. rewrite Ei in V.
    assert (M : existsb (fun w => dval_eqb w (row_value id (fst x) (snd x) (rw_groups r))) (dr_values d) = true).
    { apply existsb_exists. exists (row_value id (fst x) (snd x) (rw_groups r)). split; [|apply dval_eqb_iff; [apply row_value_keys|apply alike_refl]].
      apply derives_row_iff in Dd. subst d. unfold row_of. cbn [dr_values]. apply in_map_iff. exists (s, x). cbn [fst snd]. rewrite Ei. auto. }
    rewrite M. cbn [throw_unless]. rewrite <- V, <- F. destruct p. reflexivity.
Qed.
Lemma row_discrete_no_ub : forall (b : rulebook) id s, row_discrete_state b id s <> UB.
Proof.
  intros b id s. unfold row_discrete_state. apply obind_no_ub; [apply conv_no_ub|intros ? _]. apply obind_no_ub; [apply conv_no_ub|intros ? _]. apply obind_no_ub; [apply conv_no_ub|intros ? _].
  apply throw_unless_no_ub. intros _. discriminate.
Qed.
Lemma LoadDiscrete_ok : forall (b : rulebook) states vs, paired b -> NoDup (map fst states) ->
  LoadDiscreteValueRuleStates b states = Ok vs <->
  Forall2 (fun st v => fst v = "Right-Of-Way Rule Type/" ++ fst st /\ exists r x, In (fst st, r) (bk_rows b) /\ In (snd st, x) (rw_states r) /\ derives_value r (snd st, x) (snd v)) states vs.
Proof.
  intros b states vs P N. unfold LoadDiscreteValueRuleStates. rewrite obind_ok.
  assert (Q : forall l, each_ok (fun s => row_discrete_state b (fst s) (snd s)) states = Ok l <->
    Forall2 (fun st v => fst v = "Right-Of-Way Rule Type/" ++ fst st /\ exists r x, In (fst st, r) (bk_rows b) /\ In (snd st, x) (rw_states r) /\ derives_value r (snd st, x) (snd v)) states l).
  { intro l. rewrite each_ok_ok. apply Forall2_iff. intros st v. apply row_discrete_ok. exact P. }
  assert (K : forall l, Forall2 (fun st v => fst v = "Right-Of-Way Rule Type/" ++ fst st /\ exists r x, In (fst st, r) (bk_rows b) /\ In (snd st, x) (rw_states r) /\ derives_value r (snd st, x) (snd v)) states l ->
    NoDup (map fst l)).
  { intros l F. assert (E : map fst l = map (fun i => "Right-Of-Way Rule Type/" ++ i) (map fst states)) by (clear -F; induction F as [|a c la lc [H _] F IH]; cbn [map]; congruence).
    rewrite E. apply NoDup_map_inj; [|exact N]. intros x y. apply append_inj. }
  split.
  - intros (l & E & H). apply Q in E. apply emplace_all_ok in H; [|constructor]. destruct H as [_ ->]. exact E.
  - intro F. exists vs. split; [apply Q; exact F|]. apply emplace_all_ok; [constructor|]. cbn [app]. split; [apply K; exact F|reflexivity].
Qed.
Lemma LoadDiscrete_no_ub : forall (b : rulebook) states, LoadDiscreteValueRuleStates b states <> UB.
Proof.
  intros b states. unfold LoadDiscreteValueRuleStates. apply obind_no_ub; [apply each_ok_no_ub; intros; apply row_discrete_no_ub|intros l _].
  generalize (@nil (string * dval)). induction l as [|[k v] l IH]; intro m; cbn [emplace_all]; [discriminate|]. apply throw_unless_no_ub. intros _. apply IH.
Qed.

(** ** Phases *)
Lemma load_old_phase_ok : forall (b : rulebook) (lights : list traffic_light) n rs pn p, paired b -> good_book lights -> NoDup (map fst rs) ->
  (forall id r, In (id, r) rs <-> row_listed null_text b n id r) ->
  load_old_phase null_text b lights rs pn = Ok p -> old_phase_ok null_text b n pn /\ bulb_states_ok null_text lights pn /\ denotes_old_phase null_text b lights n pn p.
Proof.
  intros b lights n rs pn p Pb Gb Nr L H. unfold load_old_phase in H. rewrite throw_unless_ok in H. destruct H as [M H]. rewrite obind_ok in H. destruct H as (idn & E1 & H). rewrite obind_ok in H. destruct H as (id & E2 & H).
  rewrite obind_ok in H. destruct H as (d & E3 & H). rewrite obind_ok in H. destruct H as (sn & E4 & H). rewrite throw_unless_ok in H. destruct H as [Ms H]. rewrite obind_ok in H. destruct H as (st & E5 & H).
  rewrite obind_ok in H. destruct H as (vs & E6 & H). rewrite obind_ok in H. destruct H as (bs & E7 & H). injection H as <-.
  apply is_map_iff in Ms. destruct Ms as (sl & ->). cbn [pairs] in E5. rewrite need_ok in E4. pose proof (row_defaults_keys _ _ E3) as Kd.
  apply set_row_states_ok in E5. destruct E5 as (Ks & W & Wk). assert (Ns : NoDup (map fst st)) by (rewrite Ks, Kd; exact Nr).
  apply LoadDiscrete_ok in E6; auto. apply LoadBulbStates_ok in E7; auto. destruct E7 as [B1 B2].
  assert (Fs : forall i s, In (i, s) st <-> mfind String.eqb i st = Some s) by (intros i s; split; [apply (mfind_nodup _ seqb_ok _ _ _ Ns)|apply (mfind_in _ seqb_ok)]).
  assert (Key : forall i, In i (map fst d) <-> exists r, row_listed null_text b n i r).
  { intro i. rewrite Kd, in_map_iff. split; [intros ([j r] & <- & I); exists r; apply L; exact I|]. intros (r & I). apply L in I. exists (i, r). auto. }
  assert (U : forall i r r', row_listed null_text b n i r -> row_listed null_text b n i r' -> r = r').
  { intros i r r' I I'. apply L in I, I'. apply (mfind_nodup _ seqb_ok _ _ _ Nr) in I. apply (mfind_nodup _ seqb_ok _ _ _ Nr) in I'. congruence. }
  assert (LW : forall i s s', last_written null_text sl i s -> last_written null_text sl i s' -> s = s').
  { intros i s s' (l1 & l2 & k & v & E & T1 & T2 & T3) (m1 & m2 & k' & v' & E' & T1' & T2' & T3'). rewrite E in E'. clear -E' T1 T2 T3 T1' T2' T3'.
    revert m1 E'. induction l1 as [|a l1 IH]; intros [|c m1] E'; cbn in E'.
    - injection E' as -> -> ->. exact (text_fun null_text _ _ _ T2 T2').
    - injection E' as <- ->. exfalso. apply (T3 (k', v')); [apply in_or_app; right; left; reflexivity|exact T1'].
    - injection E' as -> <-. exfalso. apply (T3' (k, v)); [apply in_or_app; right; left; reflexivity|exact T1].
    - injection E' as -> E'. exact (IH _ E'). }
  split; [|split; [exact B1|]].
  - exists sl. split; [exact E4|]. split.
    + intros q I. destruct (Wk q I) as (i & s & A & B & C). apply Key in C. destruct C as (r & C). eauto 6.
    + intros i s r I Lw. destruct (W i) as [[Nw _]|(s' & Lw' & F)].
      * exfalso. destruct Lw as (l1 & l2 & k & v & E & T & _). apply (Nw (k, v)); [rewrite E; apply in_or_app; right; left; reflexivity|exact T].
      * rewrite (LW _ _ _ Lw Lw') in *. apply Fs in F. clear -E6 F I U L Pb. induction E6 as [|st0 v0 st vs (_ & r0 & x & A & B & _) E6 IH]; [destruct F|]. destruct F as [->|F]; [|exact (IH F)]. cbn in *.
        destruct I as (l & e & _ & _ & _ & I). destruct Pb as (N1 & _). apply (mfind_nodup _ seqb_ok _ _ _ N1) in A. apply (mfind_nodup _ seqb_ok _ _ _ N1) in I. rewrite A in I. injection I as <-. eauto.
  - split; [unfold phase_id; apply ident_need; eauto|]. cbn [op_rows op_values op_bulbs]. split; [exact Ns|]. split; [|split; [exact E6|exact B2]].
    intros i s. rewrite Fs. destruct (W i) as [[Nw F]|(s' & Lw & F)]; rewrite F.
    + rewrite (row_defaults_find rs d E3 Nr). split.
      * intros (r & I & Df). exists r. split; [apply L; exact I|]. right. split; [|exact Df]. intros l' El. pose proof (entry_functional _ _ _ _ E4 El) as X. injection X as <-. exact Nw.
      * intros (r & I & [(l' & El & Lw)|[_ Df]]); [|exists r; split; [apply L; exact I|exact Df]]. exfalso. pose proof (entry_functional _ _ _ _ E4 El) as X. injection X as <-.
        destruct Lw as (l1 & l2 & k & v & E & T & _). apply (Nw (k, v)); [rewrite E; apply in_or_app; right; left; reflexivity|exact T].
    + split.
      * intros [= <-]. assert (I : In i (map fst d)) by (rewrite <- Ks; change i with (fst (i, s')); apply in_map; apply Fs; exact F). apply Key in I. destruct I as (r & I).
        exists r. split; [exact I|]. left. exists sl. auto.
      * intros (r & I & [(l' & El & Lw')|[Om _]]).
        -- pose proof (entry_functional _ _ _ _ E4 El) as X. injection X as <-. rewrite (LW _ _ _ Lw Lw'). reflexivity.
        -- exfalso. specialize (Om sl E4). destruct Lw as (l1 & l2 & k & v & E & T & _). apply (Om (k, v)); [rewrite E; apply in_or_app; right; left; reflexivity|exact T].
Qed.
Lemma load_old_phase_complete : forall (b : rulebook) (lights : list traffic_light) n rs pn i, paired b -> good_book lights -> NoDup (map fst rs) ->
  (forall id r, In (id, r) rs <-> row_listed null_text b n id r) ->
  phase_id null_text pn i -> old_phase_ok null_text b n pn -> bulb_states_ok null_text lights pn -> exists p, load_old_phase null_text b lights rs pn = Ok p.
Proof.
  intros b lights n rs pn i Pb Gb Nr L Hi (sl & E4 & Hw & Hs) Hb. unfold load_old_phase. assert (M : a_map pn) by exact (entry_map _ _ _ E4). rewrite (proj2 (is_map_iff pn) M). cbn [throw_unless].
  unfold phase_id in Hi. apply ident_need in Hi. destruct Hi as (idn & -> & E2). cbn [obind]. rewrite E2. cbn [obind].
  assert (Lb : forall id r, In (id, r) rs -> In (id, r) (bk_rows b)) by (intros id r I; apply L in I; destruct I as (l & e & _ & _ & _ & I); exact I).
  destruct (row_defaults_exist rs) as (d & E3). { intros id r I. apply Lb in I. destruct Pb as (_ & _ & P). apply (P id r I). }
  rewrite E3. cbn [obind]. pose proof (row_defaults_keys _ _ E3) as Kd. pose proof E4 as E4'. apply need_ok in E4'. rewrite E4'. cbn [obind is_map throw_unless pairs].
  destruct (set_row_states_complete sl d) as (st & E5). { intros p I. destruct (Hw p I) as (id & s & r & A & B & C). exists id, s. split; auto. split; auto. rewrite Kd. apply L in C. change id with (fst (id, r)). apply in_map. exact C. }
  rewrite E5. cbn [obind]. apply set_row_states_ok in E5. destruct E5 as (Ks & W & _). assert (Ns : NoDup (map fst st)) by (rewrite Ks, Kd; exact Nr).
  assert (X : exists vs, LoadDiscreteValueRuleStates b st = Ok vs).
  { assert (Q : forall id s, In (id, s) st -> exists r x, In (id, r) (bk_rows b) /\ In (s, x) (rw_states r)).
    { intros id s I. pose proof I as I'. apply (mfind_nodup _ seqb_ok _ _ _ Ns) in I'. destruct (W id) as [[_ F]|(s' & Lw & F)]; rewrite F in I'.
      - apply (row_defaults_find rs d E3 Nr) in I'. destruct I' as (r & J & Df). destruct (default_in _ _ Df) as (x & Ix). exists r, x. split; [apply Lb; exact J|exact Ix].
      - injection I' as ->. assert (J : In id (map fst rs)) by (rewrite <- Kd, <- Ks; change id with (fst (id, s)); apply in_map; exact I). apply in_map_iff in J. destruct J as ([j r] & Ej & J). cbn in Ej. subst j.
        destruct (Hs id s r) as (x & Ix); [apply L; exact J|exact Lw|]. exists r, x. split; [apply Lb; exact J|exact Ix]. }
    assert (Y : exists vs, Forall2 (fun st v => fst v = "Right-Of-Way Rule Type/" ++ fst st /\ exists r x, In (fst st, r) (bk_rows b) /\ In (snd st, x) (rw_states r) /\ derives_value r (snd st, x) (snd v)) st vs).
    { clear -Q. induction st as [|[id s] st IH]; [exists []; constructor|]. destruct IH as (vs & F); [intros; apply Q; right; assumption|]. destruct (Q id s (or_introl eq_refl)) as (r & x & A & B).
      exists (("Right-Of-Way Rule Type/" ++ id, row_value (rw_id r) (fst x) (snd x) (rw_groups r)) :: vs). constructor; [|exact F]. cbn [fst snd]. split; [reflexivity|]. exists r, x. split; auto. split; auto. apply value_iff. reflexivity. }
    destruct Y as (vs & F). exists vs. apply LoadDiscrete_ok; auto. }
  destruct X as (vs & ->). cbn [obind]. destruct (LoadBulbStates_complete null_text lights pn Gb M Hb) as (bs & ->). cbn. eauto.
Qed.
Lemma load_old_phase_no_ub : forall (b : rulebook) (lights : list traffic_light) rs pn, good_book lights -> (forall id r, In (id, r) rs -> rw_states r <> []) -> load_old_phase null_text b lights rs pn <> UB.
Proof.
  intros b lights rs pn Gb H. unfold load_old_phase. apply throw_unless_no_ub. intros _. apply obind_no_ub; [apply need_no_ub|intros ? _]. apply obind_no_ub; [apply as_id_no_ub|intros ? _].
  apply obind_no_ub; [destruct (row_defaults_exist rs H) as (d & ->); discriminate|intros ? _]. apply obind_no_ub; [apply need_no_ub|intros ? _]. apply throw_unless_no_ub. intros _.
  apply obind_no_ub; [apply set_row_states_no_ub|intros ? _]. apply obind_no_ub; [apply LoadDiscrete_no_ub|intros ? _]. apply obind_no_ub; [apply LoadBulbStates_no_ub; exact Gb|discriminate].
Qed.

(** ** Rings *)
Lemma BuildPhaseRingOldRules_ok : forall (b : rulebook) (lights : list traffic_light) n id ps next, paired b -> good_book lights -> BuildPhaseRingOldRules to_double null_text b lights n = Ok (id, ps, next) ->
  old_ring_ok to_double null_text b lights n /\ ident_at n "ID" id /\
  (exists pl, phase_nodes n pl /\ Forall2 (denotes_old_phase null_text b lights n) pl ps) /\
  match next with None => absent n "PhaseTransitionGraph" | Some x => exists gn, entry n "PhaseTransitionGraph" gn /\ denotes_graph to_double null_text gn x end.
Proof.
  intros b lights n id ps next Pb Gb H. unfold BuildPhaseRingOldRules in H. rewrite throw_unless_ok in H. destruct H as [M H]. apply is_map_iff in M. rewrite obind_ok in H. destruct H as (idn & E1 & H). rewrite obind_ok in H. destruct H as (id' & E2 & H).
  rewrite obind_ok in H. destruct H as (rn & E3 & H). rewrite obind_ok in H. destruct H as (rs & E4 & H). rewrite obind_ok in H. destruct H as (pn & E5 & H). rewrite throw_unless_ok in H. destruct H as [S H].
  rewrite obind_ok in H. destruct H as (ps' & E6 & H). rewrite obind_ok in H. destruct H as (nx & E7 & H). injection H as -> -> ->.
  destruct (GetRules_ok b n rn rs (proj1 Pb) E3 E4) as (Nr & L & l & El & Hl). rewrite is_seq_iff in S. rewrite need_ok in E5. rewrite S in E5.
  assert (Hid : ident_at n "ID" id) by (apply ident_need; eauto).
  rewrite OldBuildNextPhases_eq in E7. apply BuildNextPhases_ok in E7; auto. rewrite as_lphase_ids in E7. destruct E7 as [G1 G2].
  apply each_ok_ok in E6. assert (F : Forall2 (fun p q => old_phase_ok null_text b n p /\ bulb_states_ok null_text lights p /\ denotes_old_phase null_text b lights n p q) (elements pn) ps).
  { clear -E6 Pb Gb Nr L to_double. induction E6 as [|p q pl ps H F IH]; constructor; auto. apply (load_old_phase_ok b lights n rs); auto. }
  split; [|split; [exact Hid|split; [|exact G2]]].
  - split; [eauto|]. split; [exists l; split; [exact El|exact Hl]|]. exists (elements pn), (map op_id ps). split; [exact E5|].
    split; [clear -F; induction F as [|p q pl ps (_ & _ & H & _) F IH]; cbn [map]; constructor; auto|]. split; [|split; [|exact G1]]; apply Forall_forall; intros p I; clear -F I; (induction F as [|a c la lc (H1 & H2 & _) F IH]; [destruct I|destruct I as [->|I]; auto]).
  - exists (elements pn). split; [exact E5|]. clear -F. induction F as [|a c la lc (H1 & H2 & H3) F IH]; constructor; auto.
Qed.
Lemma BuildPhaseRingOldRules_complete : forall (b : rulebook) (lights : list traffic_light) n, paired b -> good_book lights -> old_ring_ok to_double null_text b lights n ->
  exists r, BuildPhaseRingOldRules to_double null_text b lights n = Ok r.
Proof.
  intros b lights n Pb Gb ((id & Hid) & (l & Hl & Hr) & pl & ids & Hp & Fi & Fs & Fb & Hg). assert (M : a_map n) by exact (entry_map _ _ _ Hl).
  unfold BuildPhaseRingOldRules. rewrite (proj2 (is_map_iff n) M). cbn [throw_unless]. apply ident_need in Hid. destruct Hid as (idn & -> & E2). cbn [obind]. rewrite E2. cbn [obind].
  pose proof Hl as Hl'. apply get_entry in Hl'; [|discriminate]. rewrite Hl'. cbn [obind].
  destruct (get_row_rules_complete b l [] (proj1 Pb) Hr) as (rs & E4). assert (E4' : GetRules null_text b (Seq l) = Ok rs) by exact E4. rewrite E4'. cbn [obind].
  destruct (GetRules_ok b n (Seq l) rs (proj1 Pb) Hl' E4') as (Nr & L & _).
  pose proof Hp as Hp'. apply need_ok in Hp'. rewrite Hp'. cbn [obind is_seq throw_unless elements].
  assert (X : exists ps, each_ok (load_old_phase null_text b lights rs) pl = Ok ps /\ Forall2 (fun i p => i = op_id p) ids ps).
  { clear -Pb Gb Nr L Fi Fs Fb to_double. induction Fi as [|pn i pl ids Hi Fi IH]; [exists []; split; [reflexivity|constructor]|]. inversion Fs as [|? ? Fs1 Fs2]; subst. inversion Fb as [|? ? Fb1 Fb2]; subst.
    destruct IH as (ps & E & F); auto. destruct (load_old_phase_complete b lights n rs pn i Pb Gb Nr L Hi Fs1 Fb1) as (p & Ep). exists (p :: ps). cbn [each_ok]. rewrite Ep. cbn [obind]. rewrite E. split; [reflexivity|].
    constructor; [|exact F]. apply (load_old_phase_ok b lights n rs) in Ep; auto. destruct Ep as (_ & _ & (v & A & T & _) & _). destruct Hi as (v' & A' & T' & _). pose proof (entry_functional _ _ _ _ A A') as <-. exact (text_fun null_text _ _ _ T' T). }
  destruct X as (ps & -> & F). cbn [obind]. rewrite OldBuildNextPhases_eq.
  assert (Ids : ids = map op_id ps) by (clear -F; induction F as [|a c la lc H F IH]; cbn [map]; congruence).
  destruct (BuildNextPhases_complete to_double null_text (map as_lphase ps) n M) as (o & ->); [rewrite as_lphase_ids, <- Ids; exact Hg|]. cbn. eauto.
Qed.
Lemma BuildPhaseRingOldRules_no_ub : forall (b : rulebook) (lights : list traffic_light) n, paired b -> good_book lights -> BuildPhaseRingOldRules to_double null_text b lights n <> UB.
Proof.
  intros b lights n Pb Gb. unfold BuildPhaseRingOldRules. apply throw_unless_no_ub. intros _. apply obind_no_ub; [apply need_no_ub|intros ? _]. apply obind_no_ub; [apply as_id_no_ub|intros ? _].
  apply obind_no_ub; [apply get_no_ub|intros rn E3]. apply obind_no_ub; [unfold GetRules; apply throw_unless_no_ub; intros _; apply get_row_rules_no_ub|intros rs E4].
  destruct (GetRules_ok b n rn rs (proj1 Pb) E3 E4) as (Nr & L & _).
  apply obind_no_ub; [apply need_no_ub|intros ? _]. apply throw_unless_no_ub. intros _. apply obind_no_ub; [apply each_ok_no_ub; intros|intros ? _].
  - apply load_old_phase_no_ub; [exact Gb|]. intros id r I. apply L in I. destruct I as (l & e & _ & _ & _ & I). destruct Pb as (_ & _ & P). apply (P id r I).
  - apply obind_no_ub; [rewrite OldBuildNextPhases_eq; apply BuildNextPhases_no_ub|discriminate].
Qed.
End OldRings.
