(** Lemmas for the loaders: phases, transitions and rings. *)
From Coq Require Import String List Bool Arith ZArith Lia.
From Verif Require Import Base Maps Loaders_Model Loaders_Spec Loaders_Proofs Loaders_Proofs2 Loaders_Proofs3.
Import ListNotations.
Local Open Scope string_scope.

Section Phases.
Context {D : Type} (to_double : string -> option D) (null_text : option string) {R : Type}.
Notation text := (text null_text).
Notation ident := (ident null_text).
Notation dvalue := (dvalue (R := R)).
Notation rules := (rules (R := R)).
Notation traffic_light := (traffic_light (D := D)).
Notation lphase := (lphase (R := R)).
Notation phase_writes := (phase_writes null_text).
Notation phase_omits := (phase_omits null_text).

Definition states_ok_in (rs : rules) (pn : yaml) : Prop :=
  absent pn "RightOfWayRuleStates" \/
  exists l, entry pn "RightOfWayRuleStates" (Map l) /\
    forall p, In p l -> exists id s vs v, ident (fst p) id /\ text (snd p) s /\ In (id, vs) rs /\ In v vs /\ fst v = s.

(** One phase. *)
Lemma phase_step : forall (rs : rules) n sn acc acc', NoDup (map fst rs) -> get n "RightOfWayRuleStates" = Ok sn ->
  (if is_defined sn then is_map sn && negb (Nat.ltb 0 (ysize sn) && Nat.eqb (length acc) 0) else true) = true ->
  set_rules null_text rs (pairs sn) acc = Ok acc' ->
  map fst acc' = map fst acc /\ states_ok_in rs n /\
  forall id, (phase_omits n id /\ mfind String.eqb id acc' = mfind String.eqb id acc) \/
             (exists s vs v, phase_writes n id s /\ In (id, vs) rs /\ value_called vs s v /\ mfind String.eqb id acc' = Some v).
Proof.
  intros rs n sn acc acc' Nd G C H. apply set_rules_ok in H; auto. destruct H as (K & L & P). split; auto.
  destruct (is_defined sn) eqn:Df.
  - rewrite andb_true_iff in C. destruct C as [C _]. apply is_map_iff in C. destruct C as (l & ->). apply get_entry in G; [|discriminate]. cbn [pairs] in *. split; [right; eauto|].
    intro id. destruct (L id) as [[N E]|(s & vs & v & W & I & V & E)].
    + left. split; auto. intros l' G'. pose proof (entry_functional _ _ _ _ G G') as X. injection X as <-. exact N.
    + right. exists s, vs, v. split; auto. exists l. auto.
  - destruct sn; try discriminate. apply get_absent in G. cbn [pairs] in *. split; [left; auto|]. intro id. left. split.
    + intros l' G'. destruct (G _ G').
    + destruct (L id) as [[_ E]|(s & vs & v & (l1 & l2 & kn & vn & X & _) & _)]; auto. destruct l1; discriminate.
Qed.
Definition phase_facts (book : list traffic_light) (rs : rules) (n : yaml) (p : lphase) : Prop :=
  phase_id null_text n (lp_id p) /\ states_ok_in rs n /\ bulb_states_ok null_text book n /\ bulbs_of_phase null_text book n (lp_bulbs p) /\ map fst (lp_rules p) = map fst rs.
Lemma load_phases_ok : forall (book : list traffic_light) (rs : rules) l acc ps, good_book book -> NoDup (map fst rs) -> map fst acc = map fst rs ->
  load_phases null_text book rs l acc = Ok ps ->
  Forall2 (phase_facts book rs) l ps /\
  forall k p id v, nth_error ps k = Some p -> mfind String.eqb id (lp_rules p) = Some v ->
    (exists j s vs, last_set null_text l k id s j /\ In (id, vs) rs /\ value_called vs s v) \/ (never_set null_text l k id /\ mfind String.eqb id acc = Some v).
Proof.
  intros book rs l. induction l as [|n l IH]; intros acc ps Gb Nd Ka H; cbn [load_phases] in H.
  - injection H as <-. split; [constructor|]. intros [|k]; discriminate.
  - rewrite throw_unless_ok in H. destruct H as [C0 H]. rewrite obind_ok in H. destruct H as (idn & E1 & H). rewrite obind_ok in H. destruct H as (id0 & E2 & H).
    rewrite obind_ok in H. destruct H as (sn & E3 & H). rewrite throw_unless_ok in H. destruct H as [C1 H]. rewrite obind_ok in H. destruct H as (acc1 & E4 & H).
    rewrite obind_ok in H. destruct H as (bs & E5 & H). rewrite obind_ok in H. destruct H as (ps' & E6 & H). injection H as <-.
    destruct (phase_step rs n sn acc acc1 Nd E3 C1 E4) as (K1 & So & St). apply LoadBulbStates_ok in E5; [|exact Gb]. destruct E5 as [Bo Bp].
    apply IH in E6; [|exact Gb|exact Nd|congruence]. destruct E6 as [F Hk]. split.
    + constructor; [|exact F]. split; [apply ident_need; eauto|]. cbn. split; [exact So|]. split; [exact Bo|]. split; [exact Bp|]. congruence.
    + intros [|k] p id v Np Fv; cbn in Np.
      * injection Np as <-. cbn in Fv. destruct (St id) as [[Om E]|(s & vs & w & W & I & V & E)].
        -- right. split; [|congruence]. intros i Hi. replace i with 0 by lia. exact Om.
        -- left. exists 0, s, vs. rewrite E in Fv. injection Fv as <-. split; [|auto]. split; [lia|]. split; [exact W|]. intros i A B. lia.
      * destruct (Hk k p id v Np Fv) as [(j & s & vs & (Lj & W & O) & I & V)|[Nv E]].
        -- left. exists (S j), s, vs. split; [|auto]. split; [lia|]. split; [exact W|]. intros [|i] A B; [lia|]. cbn. apply O; lia.
        -- destruct (St id) as [[Om E']|(s & vs & w & W & I & V & E')].
           ++ right. split; [|congruence]. intros [|i] Hi; [exact Om|]. cbn. apply Nv. lia.
           ++ left. exists 0, s, vs. rewrite E' in E. injection E as <-. split; [|auto]. split; [lia|]. split; [exact W|]. intros [|i] A B; [lia|]. cbn. apply Nv. lia.
Qed.
Lemma load_phases_complete : forall (book : list traffic_light) (rs : rules) l acc ids, good_book book -> NoDup (map fst rs) -> map fst acc = map fst rs ->
  Forall2 (phase_id null_text) l ids -> Forall (states_ok_in rs) l -> Forall (bulb_states_ok null_text book) l ->
  exists ps, load_phases null_text book rs l acc = Ok ps.
Proof.
  intros book rs l. induction l as [|n l IH]; intros acc ids Gb Nd Ka Fi Fs Fb; cbn [load_phases]; [eauto|].
  inversion Fi as [|n' id l' ids' Hid Fi']; subst. inversion Fs as [|n' l' Hs Fs']; subst. inversion Fb as [|n' l' Hb Fb']; subst.
  assert (M : a_map n) by (destruct Hid as (v & E & _); exact (entry_map _ _ _ E)).
  rewrite (proj2 (is_map_iff n) M). cbn [throw_unless]. apply ident_need in Hid. destruct Hid as (idn & -> & E2). cbn [obind]. rewrite E2. cbn [obind].
  assert (X : exists sn acc1, get n "RightOfWayRuleStates" = Ok sn /\ (if is_defined sn then is_map sn && negb (Nat.ltb 0 (ysize sn) && Nat.eqb (length acc) 0) else true) = true /\
              set_rules null_text rs (pairs sn) acc = Ok acc1 /\ map fst acc1 = map fst rs).
  { destruct Hs as [A|(sl & E & H)].
    - exists Undefined, acc. split; [apply absent_undefined; auto|]. auto.
    - destruct (set_rules_complete null_text rs sl acc Nd Ka H) as (acc1 & E1). exists (Map sl), acc1. apply get_entry in E; [|discriminate]. split; auto. split.
      + cbn [is_defined is_map ysize andb]. destruct sl as [|q sl]; [reflexivity|]. destruct acc as [|a acc]; [|rewrite andb_false_r; reflexivity].
        exfalso. destruct (H q (or_introl eq_refl)) as (id' & s & vs & v & _ & _ & I & _). destruct rs; [destruct I|discriminate].
      + cbn [pairs]. split; auto. apply set_rules_ok in E1; auto. destruct E1 as (K & _). congruence. }
  destruct X as (sn & acc1 & -> & C & E4 & K1). cbn [obind]. rewrite C. cbn [throw_unless]. rewrite E4. cbn [obind].
  destruct (LoadBulbStates_complete null_text book n Gb M Hb) as (o & ->). cbn [obind]. destruct (IH acc1 ids' Gb Nd K1 Fi' Fs' Fb') as (ps & ->). cbn. eauto.
Qed.
Lemma load_phases_no_ub : forall (book : list traffic_light) (rs : rules) l acc, good_book book -> load_phases null_text book rs l acc <> UB.
Proof.
  intros book rs l. induction l as [|n l IH]; intros acc Gb; cbn [load_phases]; [discriminate|].
  apply throw_unless_no_ub. intros _. apply obind_no_ub; [apply need_no_ub|intros ? _]. apply obind_no_ub; [apply as_id_no_ub|intros ? _]. apply obind_no_ub; [apply get_no_ub|intros ? _].
  apply throw_unless_no_ub. intros _. apply obind_no_ub; [apply set_rules_no_ub|intros ? _]. apply obind_no_ub; [apply LoadBulbStates_no_ub; exact Gb|intros ? _].
  apply obind_no_ub; [apply IH; exact Gb|discriminate].
Qed.

(** ** Transitions *)
Lemma phase_exists_iff : forall (ps : list lphase) id, phase_exists ps id = true <-> In id (map lp_id ps).
Proof.
  intros ps id. unfold phase_exists. rewrite existsb_exists, in_map_iff. split; intros (p & A & B); exists p.
  - apply String.eqb_eq in B. auto.
  - split; auto. apply String.eqb_eq. exact A.
Qed.
Lemma build_next_ok : forall (ps : list lphase) e x, build_next to_double null_text ps e = Ok x <-> In (fst x) (map lp_id ps) /\ denotes_next to_double null_text e x.
Proof.
  intros ps e [id d]. unfold build_next, denotes_next. cbn [fst snd]. split.
  - intro H. rewrite throw_unless_ok in H. destruct H as [M H]. rewrite obind_ok in H. destruct H as (idn & E1 & H). rewrite obind_ok in H. destruct H as (id' & E2 & H).
    rewrite throw_unless_ok in H. destruct H as [C H]. rewrite obind_ok in H. destruct H as (dn & E3 & H). rewrite obind_ok in H. destruct H as (d' & E4 & H). injection H as -> ->.
    split; [apply phase_exists_iff; exact C|]. split; [apply ident_need; eauto|]. destruct (is_defined dn) eqn:Df.
    + rewrite omap_ok in E4. destruct E4 as (y & E4 & <-). exists dn. rewrite defined_iff in Df. split; [apply get_entry; auto|]. apply as_double_ok. exact E4.
    + injection E4 as <-. destruct dn; try discriminate. apply get_absent. exact E3.
  - intros (I & Hid & Hd). assert (M : a_map e) by (destruct Hid as (v & E & _); exact (entry_map _ _ _ E)).
    rewrite (proj2 (is_map_iff e) M). cbn [throw_unless]. apply ident_need in Hid. destruct Hid as (idn & -> & E2). cbn [obind]. rewrite E2. cbn [obind].
    rewrite (proj2 (phase_exists_iff ps id) I). cbn [throw_unless]. destruct d as [y|].
    + destruct Hd as (dn & E & Nm). pose proof (proj1 E) as Nd. apply get_entry in E; auto. rewrite E. cbn [obind]. rewrite (proj2 (defined_iff dn) Nd). apply as_double_ok in Nm. rewrite Nm. reflexivity.
    + apply absent_undefined in Hd; auto. rewrite Hd. reflexivity.
Qed.
Lemma build_next_no_ub : forall (ps : list lphase) e, build_next to_double null_text ps e <> UB.
Proof.
  intros ps e. unfold build_next. apply throw_unless_no_ub. intros _. apply obind_no_ub; [apply need_no_ub|intros ? _]. apply obind_no_ub; [apply as_id_no_ub|intros ? _].
  apply throw_unless_no_ub. intros _. apply obind_no_ub; [apply get_no_ub|intros dn _]. apply obind_no_ub; [|discriminate]. destruct (is_defined dn); [|discriminate]. apply omap_no_ub. apply as_double_no_ub.
Qed.
Lemma denotes_next_fun : forall e x y, denotes_next to_double null_text e x -> denotes_next to_double null_text e y -> x = y.
Proof.
  intros e x y A B. assert (P : forall z ps, In (fst z) (map lp_id ps) -> denotes_next to_double null_text e z -> build_next to_double null_text ps e = Ok z) by (intros z ps I H; apply build_next_ok; auto).
  pose (ps := [mk_lphase (R := R) (fst x) [] None; mk_lphase (fst y) [] None]).
  assert (E : build_next to_double null_text ps e = Ok x) by (apply P; [cbn; auto|exact A]).
  assert (F : build_next to_double null_text ps e = Ok y) by (apply P; [cbn; auto|exact B]). congruence.
Qed.
Lemma Forall2_fun {A B} : forall (P : A -> B -> Prop) l m m', (forall a b c, P a b -> P a c -> b = c) -> Forall2 P l m -> Forall2 P l m' -> m = m'.
Proof. intros P l m m' Fn F. revert m'. induction F as [|a b l m H F IH]; intros m' G; inversion G; subst; auto. f_equal; eauto. Qed.

Definition pair_ok (ids : list string) (p : yaml * yaml) : Prop :=
  exists id nl, ident (fst p) id /\ In id ids /\ snd p = Seq nl /\ Forall (next_ok to_double null_text ids) nl.
Lemma nexts_ok : forall (ps : list lphase) nl,
  (exists ns, each_ok (build_next to_double null_text ps) nl = Ok ns) <-> Forall (next_ok to_double null_text (map lp_id ps)) nl.
Proof.
  intros ps nl. split.
  - intros (ns & H). apply each_ok_ok in H. induction H as [|e x nl ns E F IH]; constructor; auto. apply build_next_ok in E. destruct E as (I & Hid & Hd).
    exists (fst x). split; auto. split; auto. destruct (snd x) as [d|]; eauto.
  - induction 1 as [|e nl (id & Hid & I & Hd) F IH]; [cbn; eauto|]. destruct IH as (ns & IH). cbn [each_ok].
    assert (X : exists x, build_next to_double null_text ps e = Ok x).
    { destruct Hd as [A|(d & Nm)]; [exists (id, None)|exists (id, Some d)]; apply build_next_ok; unfold denotes_next; cbn; auto. }
    destruct X as (x & ->). cbn [obind]. rewrite IH. cbn. eauto.
Qed.
Lemma build_nexts_ok : forall (ps : list lphase) l acc next, NoDup (map fst acc) -> build_nexts to_double null_text ps l acc = Ok next ->
  (forall p, In p l -> pair_ok (map lp_id ps) p) /\ NoDup (map fst next) /\
  forall id ns, In (id, ns) next <-> In (id, ns) acc \/ (~ In id (map fst acc) /\ exists nl, graph_entry null_text l id nl /\ Forall2 (denotes_next to_double null_text) nl ns).
Proof.
  intros ps l. induction l as [|[kn vn] l IH]; intros acc next Na H; cbn [build_nexts] in H.
  - injection H as <-. split; [intros p []|]. split; auto. intros id ns. split; auto. intros [I|(_ & nl & (l1 & k & l2 & E & _) & _)]; auto. destruct l1; discriminate.
  - rewrite obind_ok in H. destruct H as (id0 & E1 & H). rewrite throw_unless_ok in H. destruct H as [C1 H]. rewrite throw_unless_ok in H. destruct H as [C2 H]. rewrite obind_ok in H. destruct H as (ns0 & E2 & H).
    rewrite as_id_ok in E1. rewrite is_seq_iff in C2. apply phase_exists_iff in C1. pose proof (proj1 (nexts_ok ps (elements vn)) (ex_intro _ ns0 E2)) as Fn.
    assert (Fd : Forall2 (denotes_next to_double null_text) (elements vn) ns0).
    { apply each_ok_ok in E2. clear -E2. induction E2 as [|e x nl ns E F IH]; constructor; auto. apply build_next_ok in E. apply E. }
    assert (Keep : forall i nl, i <> id0 -> (graph_entry null_text ((kn, vn) :: l) i nl <-> graph_entry null_text l i nl)).
    { intros i nl Ne. split; intros (l1 & k & l2 & E & T & N).
      - destruct l1 as [|q l1]; cbn in E; injection E as Ea Eb.
        + subst. exfalso. apply Ne. exact (text_fun null_text _ _ _ T (proj1 E1)).
        + exists l1, k, l2. split; auto. split; auto. intros p I. apply N. right. exact I.
      - exists ((kn, vn) :: l1), k, l2. subst l. split; auto. split; auto. intros p [<-|I]; [|apply N; exact I]. intro T'. apply Ne. exact (text_fun null_text _ _ _ T' (proj1 E1)). }
    assert (Here : forall nl, graph_entry null_text ((kn, vn) :: l) id0 nl <-> vn = Seq nl).
    { intro nl. split.
      - intros (l1 & k & l2 & E & T & N). destruct l1 as [|q l1]; cbn in E; injection E as Ea Eb; [congruence|]. exfalso. apply (N q (or_introl eq_refl)). subst q. exact (proj1 E1).
      - intros ->. exists [], kn, l. split; auto. split; [exact (proj1 E1)|]. intros p []. }
    apply IH in H.
    + destruct H as (Hp & N & I). split; [|split; [exact N|]].
      * intros p [<-|J]; [|apply Hp; exact J]. exists id0, (elements vn). cbn. auto.
      * intros id ns. rewrite I. destruct (mhas String.eqb id0 acc) eqn:Hh.
        -- apply (mhas_in _ seqb_ok) in Hh. split; (intros [J|(Ni & nl & G & F)]; [left; exact J|right; split; [exact Ni|]; exists nl; split; auto; apply Keep; auto; intros ->; auto]).
        -- assert (Nh : ~ In id0 (map fst acc)) by (rewrite <- (mhas_in _ seqb_ok), Hh; discriminate).
           rewrite map_app, !in_app_iff. cbn [map In fst]. split.
           ++ intros [[J|[X|[]]]|(Ni & nl & G & F)]; auto.
              ** injection X as <- <-. right. split; auto. exists (elements vn). split; auto. apply Here. exact C2.
              ** right. split; [tauto|]. exists nl. split; [|exact F]. apply (Keep id nl); [|exact G]. intros ->. apply Ni. auto.
           ++ intros [J|(Ni & nl & G & F)]; auto. destruct (string_dec id id0) as [->|Ne].
              ** apply Here in G. left. right. left. f_equal. rewrite G in Fd. exact (Forall2_fun _ _ _ _ denotes_next_fun Fd F).
              ** right. split; [intros [X|[X|[]]]; auto|]. exists nl. split; auto. apply Keep; auto.
    + destruct (mhas String.eqb id0 acc) eqn:Hh; auto. rewrite map_app. cbn.
      apply (NoDup_Add (a := id0) (l := map fst acc)); [rewrite <- (app_nil_r (map fst acc)) at 1; apply Add_app|]. split; auto. rewrite <- (mhas_in _ seqb_ok). rewrite Hh. discriminate.
Qed.
Lemma build_nexts_complete : forall (ps : list lphase) l acc, (forall p, In p l -> pair_ok (map lp_id ps) p) -> exists next, build_nexts to_double null_text ps l acc = Ok next.
Proof.
  intros ps l. induction l as [|[kn vn] l IH]; intros acc H; cbn [build_nexts]; [eauto|].
  destruct (H (kn, vn) (or_introl eq_refl)) as (id & nl & E1 & I & E2 & F). cbn in E1, E2. subst vn. rewrite <- as_id_ok in E1. rewrite E1. cbn [obind].
  rewrite (proj2 (phase_exists_iff ps id) I). cbn [throw_unless is_seq elements]. destruct (proj2 (nexts_ok ps nl) F) as (ns & ->). cbn [obind]. apply IH. intros p J. apply H. right. exact J.
Qed.
Lemma build_nexts_no_ub : forall (ps : list lphase) l acc, build_nexts to_double null_text ps l acc <> UB.
Proof.
  intros ps l. induction l as [|[kn vn] l IH]; intros acc; cbn [build_nexts]; [discriminate|]. apply obind_no_ub; [apply as_id_no_ub|intros ? _].
  apply throw_unless_no_ub. intros _. apply throw_unless_no_ub. intros _. apply obind_no_ub; [|intros ? _; apply IH]. apply each_ok_no_ub. intros. apply build_next_no_ub.
Qed.
Lemma BuildNextPhases_ok : forall (ps : list lphase) n o, a_map n -> BuildNextPhases to_double null_text ps n = Ok o ->
  (absent n "PhaseTransitionGraph" \/ exists gn, entry n "PhaseTransitionGraph" gn /\ graph_ok to_double null_text (map lp_id ps) gn) /\
  match o with None => absent n "PhaseTransitionGraph" | Some next => exists gn, entry n "PhaseTransitionGraph" gn /\ denotes_graph to_double null_text gn next end.
Proof.
  intros ps n o M H. unfold BuildNextPhases in H. rewrite obind_ok in H. destruct H as (gn & E & H). destruct (is_defined gn) eqn:Df.
  - rewrite defined_iff in Df. rewrite throw_unless_ok in H. destruct H as [_ H]. rewrite omap_ok in H. destruct H as (next & H & <-). apply get_entry in E; auto.
    assert (Ns : forall e l, gn <> Seq (e :: l)) by (intros e l ->; cbn in H; discriminate).
    apply build_nexts_ok in H; [|constructor]. destruct H as (P & N & I). split.
    + right. exists gn. split; auto. split; auto. intros l -> p J. apply P. exact J.
    + exists gn. split; auto. split; auto. intros id ns. rewrite I. split.
      * intros [[]|(_ & nl & G & F)]. destruct gn as [| | |l|l]; cbn [pairs] in G; try (destruct G as (l1 & k & l2 & X & _); destruct l1; discriminate).
        -- destruct l as [|e l]; [|destruct (Ns e l eq_refl)]. destruct G as (l1 & k & l2 & X & _). destruct l1; discriminate.
        -- exists l, nl. auto.
      * intros (l & nl & -> & G & F). right. split; [intros []|]. exists nl. auto.
  - injection H as <-. destruct gn; try discriminate. apply get_absent in E. auto.
Qed.
Lemma BuildNextPhases_complete : forall (ps : list lphase) n, a_map n ->
  (absent n "PhaseTransitionGraph" \/ exists gn, entry n "PhaseTransitionGraph" gn /\ graph_ok to_double null_text (map lp_id ps) gn) -> exists o, BuildNextPhases to_double null_text ps n = Ok o.
Proof.
  intros ps n M [A|(gn & E & Ns & H)]; unfold BuildNextPhases.
  - apply absent_undefined in A; auto. rewrite A. cbn. eauto.
  - pose proof (proj1 E) as Nd. apply get_entry in E; auto. rewrite E. cbn [obind]. rewrite (proj2 (defined_iff gn) Nd), (proj2 (is_map_iff n) M). cbn [throw_unless].
    destruct (build_nexts_complete ps (pairs gn) []) as (next & ->); [|cbn; eauto].
    destruct gn as [| | |[|e l]|l]; cbn [pairs map]; [intros p []|intros p []|intros p []|intros p []|destruct (Ns e l eq_refl)|apply H; reflexivity].
Qed.
Lemma BuildNextPhases_no_ub : forall (ps : list lphase) n, BuildNextPhases to_double null_text ps n <> UB.
Proof.
  intros ps n. unfold BuildNextPhases. apply obind_no_ub; [apply get_no_ub|intros gn _]. destruct (is_defined gn); [|discriminate].
  apply throw_unless_no_ub. intros _. apply omap_no_ub. apply build_nexts_no_ub.
Qed.

(** ** Rings *)
Lemma states_ok_listed : forall rulebook (rs : rules) n pn, (forall id vs, In (id, vs) rs <-> listed null_text rulebook n id vs) -> (states_ok_in rs pn <-> rule_states_ok null_text rulebook n pn).
Proof.
  intros rulebook rs n pn L. split; (intros [A|(l & E & H)]; [left; exact A|]; right; exists l; split; [exact E|]; intros p I; destruct (H p I) as (id & s & vs & v & A & B & C & F & G);
    exists id, s, vs, v; split; [exact A|split; [exact B|split; [apply L; exact C|auto]]]).
Qed.
(** Everything about an accepted ring. *)
Lemma BuildPhaseRing_ok : forall rulebook (book : list traffic_light) n id ps next, good_book book -> NoDup (map fst rulebook) ->
  BuildPhaseRing to_double null_text rulebook book n = Ok (id, ps, next) ->
  exists pl (rs : rules) d, ident_at null_text n "ID" id /\ phase_nodes n pl /\ (forall i vs, In (i, vs) rs <-> listed null_text rulebook n i vs) /\ NoDup (map fst rs) /\
    (exists l, entry n "Rules" (Seq l) /\ (rulebook <> [] -> forall e, In e l -> exists i vs, ident e i /\ In (i, vs) rulebook)) /\
    CreateDefaultRuleStates rs = Ok d /\ load_phases null_text book rs pl d = Ok ps /\ BuildNextPhases to_double null_text ps n = Ok next /\ a_map n.
Proof.
  intros rulebook book n id ps next Gb Nb H. unfold BuildPhaseRing in H. rewrite throw_unless_ok in H. destruct H as [M H]. rewrite obind_ok in H. destruct H as (idn & E1 & H). rewrite obind_ok in H. destruct H as (id' & E2 & H).
  rewrite obind_ok in H. destruct H as (rn & E3 & H). rewrite obind_ok in H. destruct H as (rs & E4 & H). rewrite obind_ok in H. destruct H as (d & E5 & H).
  rewrite obind_ok in H. destruct H as (pn & E6 & H). rewrite throw_unless_ok in H. destruct H as [C H]. rewrite obind_ok in H. destruct H as (ps' & E7 & H). rewrite obind_ok in H. destruct H as (next' & E8 & H).
  injection H as -> -> ->. destruct (right_of_way_rules_ok null_text rulebook n rn rs Nb E3 E4) as (Nr & L & Hl). rewrite is_seq_iff in C. rewrite need_ok in E6.
  exists (elements pn), rs, d. split; [apply ident_need; eauto|]. split; [unfold phase_nodes; rewrite <- C; exact E6|]. split; auto. split; auto. split; auto. split; auto. split; auto. split; auto. apply is_map_iff. exact M.
Qed.
Lemma text_ident : forall e i j, text e i -> ident e j -> i = j.
Proof. intros e i j T [T' _]. exact (text_fun null_text _ _ _ T T'). Qed.
Lemma ring_accepted : forall rulebook (book : list traffic_light) n, good_book book -> NoDup (map fst rulebook) ->
  (exists r, BuildPhaseRing to_double null_text rulebook book n = Ok r) <-> ring_ok to_double null_text (R := R) rulebook book n.
Proof.
  intros rulebook book n Gb Nb. split.
  - intros ([[id ps] next] & H). apply BuildPhaseRing_ok in H; auto. destruct H as (pl & rs & d & Hid & Hp & L & Nr & (l & Hl & Hr) & Hd & Hps & Hn & M).
    split; [eauto|]. split.
    + exists l. split; auto. intros Ne e I. destruct (Hr Ne e I) as (i & vs & Hi & J).
      assert (K : In (i, vs) rs) by (apply L; exists l, e; split; auto; split; auto; split; auto; exact (proj1 Hi)).
      apply defaults_ok in Hd. clear -Hd K Hi J. induction Hd as [|r p rs d [E F] Hd IH]; [destruct K|]. destruct K as [->|K]; [|exact (IH K)]. exists i, vs, (snd p). auto.
    + pose proof (defaults_keys _ _ Hd) as Kd. apply load_phases_ok in Hps; auto. destruct Hps as [F _]. apply BuildNextPhases_ok in Hn; auto.
      exists pl, (map lp_id ps). split; auto. split; [clear -F; induction F as [|a b la lb H F IH]; cbn; constructor; auto; apply H|].
      split; [|split; [|apply Hn]].
      * apply Forall_forall. intros pn I. apply (states_ok_listed rulebook rs n pn L). clear -F I. induction F as [|a b la lb H F IH]; [destruct I|]. destruct I as [->|I]; auto. apply H.
      * apply Forall_forall. intros pn I. clear -F I. induction F as [|a b la lb H F IH]; [destruct I|]. destruct I as [->|I]; auto. apply H.
  - intros ((id & Hid) & (l & Hl & Hr) & pl & ids & Hp & Fi & Fs & Fb & Hg). assert (M : a_map n) by exact (entry_map _ _ _ Hl).
    unfold BuildPhaseRing. rewrite (proj2 (is_map_iff n) M). cbn [throw_unless]. apply ident_need in Hid. destruct Hid as (idn & -> & E2). cbn [obind]. rewrite E2. cbn [obind].
    pose proof Hl as Hl'. apply get_entry in Hl'; [|discriminate]. rewrite Hl'. cbn [obind].
    assert (X : exists rs, GetRightOfWayTypeRules null_text rulebook (Seq l) = Ok rs).
    { unfold GetRightOfWayTypeRules. cbn [is_seq throw_unless elements]. destruct rulebook as [|r0 rb] eqn:Eb; [eauto|]. rewrite <- Eb in *. apply get_rules_complete; auto.
      intros e I. destruct (Hr ltac:(congruence) e I) as (i & vs & v & A & B & _). eauto. }
    destruct X as (rs & E4). rewrite E4. cbn [obind]. destruct (right_of_way_rules_ok null_text rulebook n (Seq l) rs Nb Hl' E4) as (Nr & L & _).
    assert (Y : exists d, CreateDefaultRuleStates rs = Ok d).
    { assert (P : forall i vs, In (i, vs) rs -> exists v, default_value vs v).
      { intros i vs I. apply L in I. destruct I as (l' & e & E & J & T & B). pose proof (entry_functional _ _ _ _ Hl E) as Z. injection Z as <-.
        destruct (Hr ltac:(intros ->; destruct B) e J) as (i' & vs' & v & A & B' & Dv). pose proof (text_ident e i i' T A) as <-.
        apply (mfind_nodup _ seqb_ok) in B; auto. apply (mfind_nodup _ seqb_ok) in B'; auto. rewrite B in B'. injection B' as <-. eauto. }
      clear -P. unfold CreateDefaultRuleStates. induction rs as [|[i vs] rs IH]; [cbn; eauto|]. cbn [each_ok fst snd]. destruct (P i vs (or_introl eq_refl)) as (v & Dv). apply default_ok in Dv. rewrite Dv. cbn [omap obind].
      destruct IH as (d & ->); [intros; eapply P; right; eauto|]. cbn. eauto. }
    destruct Y as (d & E5). rewrite E5. cbn [obind]. unfold phase_nodes in Hp. apply need_ok in Hp. rewrite Hp. cbn [obind is_seq throw_unless elements].
    pose proof (defaults_keys _ _ E5) as Kd.
    destruct (load_phases_complete book rs pl d ids Gb Nr Kd Fi) as (ps & E7); auto.
    { revert Fs. apply Forall_impl. intros pn. apply (states_ok_listed rulebook rs n pn L). }
    rewrite E7. cbn [obind]. pose proof E7 as E7'. apply load_phases_ok in E7'; auto. destruct E7' as [F _].
    assert (Ids : ids = map lp_id ps).
    { clear -F Fi. revert ids Fi. induction F as [|a b la lb H F IH]; intros ids Fi; inversion Fi as [|a' i la' ids' Hi Fi']; subst; auto. cbn. f_equal; auto.
      destruct H as ((v & E & T & _) & _), Hi as (v' & E' & T' & _). pose proof (entry_functional _ _ _ _ E E') as <-. exact (text_fun null_text _ _ _ T' T). }
    rewrite Ids in Hg. destruct (BuildNextPhases_complete ps n M Hg) as (o & ->). cbn. eauto.
Qed.
Lemma ring_ub : forall rulebook (book : list traffic_light) n, good_book book -> NoDup (map fst rulebook) ->
  BuildPhaseRing to_double null_text rulebook book n = UB -> exists id vs, listed null_text (R := R) rulebook n id vs /\ forall v, In v vs -> fst v <> "Stop" /\ fst v <> "StopThenGo" /\ fst v <> "Go".
Proof.
  intros rulebook book n Gb Nb H. unfold BuildPhaseRing in H. destruct (is_map n) eqn:M; [|discriminate]. cbn [throw_unless] in H.
  destruct (need n "ID") as [idn| |] eqn:E1; [|discriminate|destruct (need_no_ub _ _ E1)]. cbn [obind] in H. destruct (as_id null_text idn) as [id| |] eqn:E2; [|discriminate|destruct (as_id_no_ub _ _ E2)]. cbn [obind] in H.
  destruct (get n "Rules") as [rn| |] eqn:E3; [|discriminate|destruct (get_no_ub _ _ E3)]. cbn [obind] in H.
  destruct (GetRightOfWayTypeRules null_text rulebook rn) as [rs| |] eqn:E4; [|discriminate|].
  - cbn [obind] in H. destruct (right_of_way_rules_ok null_text rulebook n rn rs Nb E3 E4) as (Nr & L & _).
    destruct (CreateDefaultRuleStates rs) as [d| |] eqn:E5; [|discriminate|].
    + exfalso. cbn [obind] in H. revert H. apply obind_no_ub; [apply need_no_ub|intros pn _]. apply throw_unless_no_ub. intros _. apply obind_no_ub; [apply load_phases_no_ub; exact Gb|intros ? _].
      apply obind_no_ub; [apply BuildNextPhases_no_ub|discriminate].
    + clear H. enough (X : exists i vs, In (i, vs) rs /\ GetDefaultState vs = UB) by (destruct X as (i & vs & I & U); exists i, vs; rewrite <- L, <- default_ub; auto).
      clear -E5. unfold CreateDefaultRuleStates in E5. induction rs as [|[i vs] rs IH]; [discriminate|]. cbn [each_ok fst snd] in E5.
      destruct (GetDefaultState vs) as [v| |] eqn:U; cbn [omap obind] in E5.
      * destruct IH as (j & ws & I & W); [|exists j, ws; split; [right; exact I|exact W]]. destruct (each_ok _ rs); [discriminate|discriminate|reflexivity].
      * discriminate.
      * exists i, vs. split; [left; reflexivity|exact U].
  - exfalso. revert E4. unfold GetRightOfWayTypeRules. apply throw_unless_no_ub. intros _. destruct rulebook as [|r rb]; [discriminate|]. generalize (r :: rb). intro bk. generalize (@nil (string * list dvalue)). clear.
    induction (elements rn) as [|e l IH]; intros acc; cbn [get_rules]; [discriminate|]. apply obind_no_ub; [apply as_id_no_ub|intros ? _]. apply obind_no_ub; [apply conv_no_ub|intros ? _]. apply IH.
Qed.
End Phases.
