(** C25, C26, C27, C28: phase rings, ring books, phase providers and the state
    providers driven by them. *)
From Coq Require Import List QArith Bool Arith Lia.
From Verif Require Import Base Maps Phases_Model Phases_Spec Hierarchy_Proofs Phases_Proofs.
Import ListNotations.
Local Open Scope nat_scope.

(** ** C25 *)
(** The constructor accepts exactly the arguments with at least one phase, distinct
    phase ids, next phases listed for exactly the phases, every phase governing the
    rules of the first one and, when the first phase has bulb states, every phase
    having bulb states for the same bulbs; the ring holds what was given. *)
Theorem phase_ring_constructor id ps next :
  (forall p, In p ps -> phase_maps p) -> (forall n, next = Some n -> NoDup (keys n)) ->
  ((exists r, PhaseRing id ps next = Ok r) <->
   exists p0, nth_error ps 0 = Some p0 /\ NoDup (map ph_id ps) /\
     (forall n, next = Some n -> same_set (keys n) (map ph_id ps)) /\
     (forall p, In p ps -> same_rules p p0) /\
     (forall p rb, In p ps -> ph_bulbs p0 = Some rb -> exists pb, ph_bulbs p = Some pb /\ same_set (keys pb) (keys rb))).
Proof.
  intros P N. pose proof (PhaseRing_spec id ps next P N) as S.
  assert (Q : ring_args_ok ps next <-> exists p0, nth_error ps 0 = Some p0 /\ NoDup (map ph_id ps) /\
     (forall n, next = Some n -> same_set (keys n) (map ph_id ps)) /\
     (forall p, In p ps -> same_rules p p0) /\
     (forall p rb, In p ps -> ph_bulbs p0 = Some rb -> exists pb, ph_bulbs p = Some pb /\ same_set (keys pb) (keys rb))).
  { unfold ring_args_ok, covered. destruct ps as [|p0 ps'].
    - split; [intros []|]. intros (p0 & H & _). discriminate.
    - split.
      + intros (A & B & C). exists p0. split; [reflexivity|]. split; auto. split; auto. split.
        * intros p H. apply C; auto.
        * intros p rb H. apply (C p H).
      + intros (q & H & A & B & C & D). inversion H; subst. auto. }
  rewrite <- Q. destruct (PhaseRing id ps next) as [r| |].
  - split; [intros _; apply S|eauto].
  - split; [intros [r H]; discriminate|tauto].
  - split; [intros [r H]; discriminate|tauto].
Qed.
Print Assumptions phase_ring_constructor.

Theorem phase_ring_contents id ps next r :
  (forall p, In p ps -> phase_maps p) -> (forall n, next = Some n -> NoDup (keys n)) ->
  PhaseRing id ps next = Ok r ->
  rg_id r = id /\
  (forall p, In p ps -> GetPhase r (ph_id p) = Some p) /\
  (forall i p, GetPhase r i = Some p -> In p ps /\ ph_id p = i) /\
  same_set (keys (rg_next r)) (keys (rg_phases r)) /\
  (forall n, next = Some n -> rg_next r = n) /\
  (forall p q, In p ps -> In q ps -> same_rules p q).
Proof.
  intros P N E. pose proof (PhaseRing_spec id ps next P N) as S. pose proof (PhaseRing_ring_ok _ _ _ _ P N E) as R.
  rewrite E in S. destruct S as (A & S1 & S2 & S3 & S4).
  assert (K : keys (rg_phases r) = map ph_id ps) by (rewrite S2; unfold keys; rewrite map_map; reflexivity).
  assert (Nd : NoDup (keys (rg_phases r))) by apply R.
  split; [exact S1|]. split; [|split; [|split; [|split]]].
  - intros p H. unfold GetPhase. apply (mfind_nodup Nat.eqb nat_eqb_ok); auto. rewrite S2. apply in_map_iff. eauto.
  - intros i p H. unfold GetPhase in H. apply (mfind_in Nat.eqb nat_eqb_ok) in H. rewrite S2 in H. apply in_map_iff in H.
    destruct H as (q & H & I). inversion H; subst. auto.
  - rewrite K. exact S3.
  - intros n H. destruct S4 as [S4|[S4 _]]; congruence.
  - intros p q Hp Hq. apply R; rewrite S2, map_map; cbn [snd]; rewrite map_id; assumption.
Qed.
Print Assumptions phase_ring_contents.

(** Finding: "the phases define different sets of bulb states" should throw
    (phase_ring.h 76-80).  When only the first phase has bulb states an empty
    std::optional is dereferenced; when only the first phase lacks them the ring is
    accepted. *)
Theorem phase_ring_bulbs_refuted :
  (exists ps, (forall p, In p ps -> phase_maps p) /\ PhaseRing 0 ps None = UB) /\
  (exists ps r p q, (forall p, In p ps -> phase_maps p) /\ PhaseRing 0 ps None = Ok r /\ In p ps /\ In q ps /\ ~ same_bulbs p q).
Proof.
  assert (W : forall p, In p [mk_phase 1 [(7, 0)] [] (Some [(5, 1)]); mk_phase 2 [(7, 1)] [] None] -> phase_maps p).
  { intros p [<-|[<-|[]]]; repeat split; cbn; try (constructor; [intros []|constructor]); try constructor;
      intros b H; inversion H; cbn. constructor; [intros []|constructor]. }
  split.
  - eexists. split; [exact W|]. reflexivity.
  - exists [mk_phase 2 [(7, 1)] [] None; mk_phase 1 [(7, 0)] [] (Some [(5, 1)])]. eexists. eexists. eexists.
    split; [|split; [reflexivity|]].
    + intros p H. apply W. destruct H as [H|[H|[]]]; [right; left|left]; auto.
    + split; [left; reflexivity|]. split; [right; left; reflexivity|]. cbn. tauto.
Qed.
Print Assumptions phase_ring_bulbs_refuted.

(** Finding: the constructor documents a throw for "a next phase that is not in
    `phases`" (phase_ring.h 80-82); the code only checks the keys. *)
Theorem phase_ring_next_outside_refuted :
  exists ps n r i d, PhaseRing 0 ps (Some n) = Ok r /\ In (i, [d]) n /\ GetPhase r (fst d) = None.
Proof.
  exists [mk_phase 1 [(7, 0)] [] None], [(1, [(99, None)])]. eexists. exists 1, (99, None).
  split; [reflexivity|]. split; [left; reflexivity|reflexivity].
Qed.
Print Assumptions phase_ring_next_outside_refuted.

Definition pA : phase := mk_phase 1 [(7, 0); (8, 1)] [(20, 3)] (Some [(5, 1)]).
Definition pB : phase := mk_phase 2 [(8, 0); (7, 1)] [(20, 4)] (Some [(5, 0)]).
Definition rAB : ring := mk_ring 30 [(1, pA); (2, pB)] [(1, [(2, Some 10%Q)]); (2, [(1, None)])].
Definition pC : phase := mk_phase 1 [(9, 0)] [(21, 3)] None.
Definition rC : ring := mk_ring 31 [(1, pC)] [(1, [])].

Ltac nodup := repeat (constructor; [cbn; intuition discriminate|]); constructor.
Lemma pAB_maps : forall p, In p [pA; pB] -> phase_maps p.
Proof.
  intros p [<-|[<-|[]]]; (split; [|split]); cbn; try nodup; intros b H; inversion H; cbn; nodup.
Qed.
Example phase_ring_example :
  PhaseRing 30 [pA; pB] (Some [(1, [(2, Some 10%Q)]); (2, [(1, None)])]) = Ok rAB /\
  PhaseRing 31 [pC] None = Ok rC /\
  PhaseRing 30 [pA; pC] None = Throw.
Proof. repeat split. Qed.

(** ** C26 *)
(** The book after a history [h], throws caught. *)
Definition after (h : list rop) : rbook := act_run rstep h rb_empty.

(** Constructed rings are well formed, so [rop_ok] holds for what callers can pass. *)
Theorem constructed_rings_ok id ps next r :
  (forall p, In p ps -> phase_maps p) -> (forall n, next = Some n -> NoDup (keys n)) ->
  PhaseRing id ps next = Ok r -> ring_ok r.
Proof. exact (PhaseRing_ring_ok id ps next r). Qed.
Print Assumptions constructed_rings_ok.

(** For histories in which no added ring governs a rule that a present ring governs
    (unless its id is present too): the book is the map given by the history, and
    the rule lookups return the one present ring governing the rule, or nothing
    exactly when there is none.  The full statement, for every history, is
    refuted below. *)
Theorem ring_book_lookup_partial h c :
  (forall o, In o h -> rop_ok o) -> rreplay h c ->
  (forall id, GetPhaseRing (after h) id = c id) /\
  (forall id, In id (GetPhaseRings (after h)) <-> c id <> None) /\ NoDup (GetPhaseRings (after h)) /\
  (forall x r, FindPhaseRingRow (after h) x = Ok (Some r) <-> c (rg_id r) = Some r /\ covers_row r x) /\
  (forall x, FindPhaseRingRow (after h) x = Ok None <-> forall id r, c id = Some r -> ~ covers_row r x) /\
  (forall x r, FindPhaseRingRule (after h) x = Ok (Some r) <-> c (rg_id r) = Some r /\ covers_rule r x) /\
  (forall x, FindPhaseRingRule (after h) x = Ok None <-> forall id r, c id = Some r -> ~ covers_rule r x).
Proof.
  intros R H. destruct (rbook_run h c R H) as [I J]. fold (after h) in *.
  split; [exact J|]. split; [|split; [|split; [|split; [|split]]]].
  - intro id. rewrite <- J. unfold content, GetPhaseRings.
    destruct (mfind Nat.eqb id (rings (after h))) as [r|] eqn:E.
    + split; [discriminate|]. intros _. apply (mfind_in Nat.eqb nat_eqb_ok) in E. apply in_map_iff. exists (id, r). auto.
    + apply (mfind_none Nat.eqb nat_eqb_ok) in E. split; [tauto|congruence].
  - exact (ri_keys _ I).
  - intros x r. rewrite (find_row_iff _ x r I), J. reflexivity.
  - intros x. pose proof (find_row_ok _ x I) as F. split.
    + intros E id r Hr. rewrite E in F. rewrite <- J in Hr. apply (F id r Hr).
    + intro G. destruct (FindPhaseRingRow (after h) x) as [[r|]| |]; try (destruct F; fail); auto.
      destruct F as [F1 F2]. rewrite J in F1. destruct (G _ _ F1 F2).
  - intros x r. rewrite (find_rule_iff _ x r I), J. reflexivity.
  - intros x. pose proof (find_rule_ok _ x I) as F. split.
    + intros E id r Hr. rewrite E in F. rewrite <- J in Hr. apply (F id r Hr).
    + intro G. destruct (FindPhaseRingRule (after h) x) as [[r|]| |]; try (destruct F; fail); auto.
      destruct F as [F1 F2]. rewrite J in F1. destruct (G _ _ F1 F2).
Qed.
Print Assumptions ring_book_lookup_partial.

(** Which calls return in such a history. *)
Theorem ring_book_returns_partial h o c c' ok :
  (forall o', In o' (h ++ [o]) -> rop_ok o') -> rreplay h c -> reffect o c c' ok ->
  snd (rstep o (after h)) = ok.
Proof. exact (rbook_returns h o c c' ok). Qed.
Print Assumptions ring_book_returns_partial.

Lemma rAB_ok : ring_ok rAB.
Proof. apply (PhaseRing_ring_ok 30 [pA; pB] (Some [(1, [(2, Some 10%Q)]); (2, [(1, None)])])); [apply pAB_maps| |reflexivity].
  intros n H; inversion H; cbn; nodup. Qed.
Lemma rC_ok : ring_ok rC.
Proof. apply (PhaseRing_ring_ok 31 [pC] None); [|discriminate|reflexivity].
  intros p [<-|[]]. split; [|split]; cbn; try nodup. discriminate. Qed.

Lemma rABC_disjoint : ~ share_rule rC rAB.
Proof.
  intros [(x & (p & P1 & P2) & (q & Q1 & Q2))|(x & (p & P1 & P2) & (q & Q1 & Q2))];
    cbn in P1; destruct P1 as [<-|[]]; cbn in P2; destruct P2 as [<-|[]];
    cbn in Q1; destruct Q1 as [<-|[<-|[]]]; cbn in Q2; intuition discriminate.
Qed.
Example ring_book_example :
  exists c, rreplay [AddR 0 rAB; AddR 5 rC; AddR 1 rAB] c /\ c 30 = Some rAB /\ c 31 = Some rC /\
  FindPhaseRingRow (after [AddR 0 rAB; AddR 5 rC; AddR 1 rAB]) 8 = Ok (Some rAB) /\
  FindPhaseRingRule (after [AddR 0 rAB; AddR 5 rC; AddR 1 rAB]) 21 = Ok (Some rC) /\
  FindPhaseRingRow (after [AddR 0 rAB; AddR 5 rC; AddR 1 rAB; RemR 1 30]) 8 = Ok None.
Proof.
  set (c1 := fun id => if Nat.eqb id 30 then Some rAB else None).
  set (c2 := fun id => if Nat.eqb id 31 then Some rC else c1 id).
  exists c2. split; [|repeat split].
  change [AddR 0 rAB; AddR 5 rC; AddR 1 rAB] with ((([] ++ [AddR 0 rAB]) ++ [AddR 5 rC]) ++ [AddR 1 rAB]).
  eapply rr_snoc with (c := c2) (ok := false).
  - eapply rr_snoc with (c := c1) (ok := true).
    + eapply rr_snoc with (c := fun _ => None) (ok := true); [constructor|]. apply re_add; [reflexivity|discriminate|reflexivity].
    + apply re_add; [reflexivity| |reflexivity]. intros id x H. unfold c1 in H. destruct (Nat.eqb id 30); [|discriminate].
      inversion H; subst. apply rABC_disjoint.
  - apply (re_dup _ _ rAB); reflexivity.
Qed.

(** Finding: AddPhaseRing is not atomic.  Adding a ring that governs an already
    governed rule throws, but the ring stays in the book; removing it afterwards
    takes the rule of the other ring out of the index. *)
Theorem ring_book_add_refuted :
  exists r1 r2 x b, ring_ok r1 /\ ring_ok r2 /\
    b = fst (rstep (AddR 0 r2) (after [AddR 0 r1])) /\ snd (rstep (AddR 0 r2) (after [AddR 0 r1])) = false /\
    GetPhaseRing (after [AddR 0 r1]) (rg_id r2) = None /\ GetPhaseRing b (rg_id r2) = Some r2 /\
    snd (rstep (RemR 0 (rg_id r2)) b) = true /\
    GetPhaseRing (fst (rstep (RemR 0 (rg_id r2)) b)) (rg_id r1) = Some r1 /\ covers_row r1 x /\
    FindPhaseRingRow (fst (rstep (RemR 0 (rg_id r2)) b)) x = Ok None.
Proof.
  set (q := mk_phase 1 [(9, 1)] [] None). set (r2 := mk_ring 32 [(1, q)] [(1, [])]).
  exists rC, r2, 9. eexists. split; [exact rC_ok|]. split.
  { apply (PhaseRing_ring_ok 32 [q] None); [|discriminate|reflexivity].
    intros p [<-|[]]. split; [|split]; cbn; try nodup. discriminate. }
  split; [reflexivity|]. repeat split. exists pC. cbn. auto.
Qed.
Print Assumptions ring_book_add_refuted.

(** ** C27 *)
(** One call, from any state: when it returns, what it changes. *)
Theorem phase_provider_step o m :
  (snd (pstep o m) = true <->
     ~ pop_bad o /\ match o with
                    | AddP i _ _ _ => ProviderGetPhase m i = None
                    | SetP i _ _ _ => ProviderGetPhase m i <> None
                    end) /\
  (snd (pstep o m) = true -> exists r, ProviderGetPhase (fst (pstep o m)) (pop_ring o) = Some r /\ (p_state r, p_next r) = pop_value o) /\
  (forall id, id <> pop_ring o -> option_map (fun r => (p_state r, p_next r)) (ProviderGetPhase (fst (pstep o m)) id) =
                                  option_map (fun r => (p_state r, p_next r)) (ProviderGetPhase m id)) /\
  (snd (pstep o m) = false -> fst (pstep o m) = m).
Proof.
  pose proof (pstep_spec o m) as S. destruct (pstep o m) as [m' ok]. cbn [fst snd]. destruct S as (S1 & S2 & S3).
  split; [exact S1|]. split; [|split; [|exact S3]].
  - intros ->. specialize (S2 (pop_ring o)). rewrite Nat.eqb_refl in S2. cbn [andb] in S2.
    destruct (ProviderGetPhase m' (pop_ring o)) as [r|]; [|discriminate]. exists r. split; auto. inversion S2. reflexivity.
  - intros id H. specialize (S2 id). destruct (Nat.eqb_spec (pop_ring o) id); [congruence|]. rewrite andb_false_r in S2. exact S2.
Qed.
Print Assumptions phase_provider_step.

(** GetPhase shows the last returned call on the ring. *)
Theorem phase_provider_last_written h id :
  option_map (fun r => (p_state r, p_next r)) (ProviderGetPhase (act_run pstep h []) id) = last_written id (ptrace h []) None.
Proof. exact (provider_last h [] id). Qed.
Print Assumptions phase_provider_last_written.

Example phase_provider_example :
  ptrace [AddP 30 1 (Some 2) (Some 10%Q); AddP 30 2 None None; SetP 31 1 None None; SetP 30 2 None (Some 1%Q); SetP 30 2 (Some 1) None] [] =
    [(AddP 30 1 (Some 2) (Some 10%Q), true); (AddP 30 2 None None, false); (SetP 31 1 None None, false);
     (SetP 30 2 None (Some 1%Q), false); (SetP 30 2 (Some 1) None, true)] /\
  ProviderGetPhase (act_run pstep [AddP 30 1 (Some 2) (Some 10%Q); AddP 30 2 None None; SetP 31 1 None None; SetP 30 2 None (Some 1%Q); SetP 30 2 (Some 1) None] []) 30 =
    Some (mk_presult 2 (Some (1, None))).
Proof. split; reflexivity. Qed.

(** The default provider of a book gives every ring one of its phases, with the
    first of that phase's next phases, and nothing else. *)
Theorem default_phase_provider pick h c :
  (forall o, In o h -> rop_ok o) -> rreplay h c ->
  (forall id r, c id = Some r -> same_set (keys (rg_next r)) (keys (rg_phases r))) ->
  exists m, GetDefaultPhaseProvider pick (after h) = Ok m /\
    (forall id, c id = None -> ProviderGetPhase m id = None) /\
    (forall id r, c id = Some r -> exists ph nx ns, ProviderGetPhase m id = Some (mk_presult ph nx) /\ has_phase r ph /\
       In (ph, ns) (rg_next r) /\ match ns with [] => nx = None | x :: _ => nx = Some x end).
Proof.
  intros R H S. destruct (rbook_run h c R H) as [I J]. fold (after h) in *.
  destruct (default_loop_ok pick (after h) I) with (ids := GetPhaseRings (after h)) (m := @nil (nat * presult)) as (m & M1 & M2 & M3).
  - intros id r E. rewrite J in E. apply (S id r E).
  - exact (ri_keys _ I).
  - intros id Hid. unfold content. intro E. apply (mfind_none Nat.eqb nat_eqb_ok) in E. contradiction.
  - reflexivity.
  - exists m. split; [exact M1|]. split.
    + intros id E. rewrite M2; [reflexivity|]. rewrite <- J in E. unfold content in E.
      apply (mfind_none Nat.eqb nat_eqb_ok) in E. exact E.
    + intros id r E. rewrite <- J in E. apply M3; auto. unfold content in E.
      apply (mfind_in Nat.eqb nat_eqb_ok) in E. unfold GetPhaseRings. apply in_map_iff. exists (id, r). auto.
Qed.
Print Assumptions default_phase_provider.

Example default_phase_provider_example :
  GetDefaultPhaseProvider (fun _ => 1) (after [AddR 0 rAB; AddR 5 rC]) =
    Ok [(30, mk_presult 2 (Some (1, None))); (31, mk_presult 1 None)].
Proof. reflexivity. Qed.

(** ** C28 *)
(** The state of a right-of-way rule in the phase based provider: nothing unless
    some present ring governs the rule and has a current phase; then the state that
    phase assigns, and for a next phase what that assigns with the provider's
    duration; a throw exactly when the provider names a phase outside the ring. *)
Theorem phase_based_state h c m x :
  (forall o, In o h -> rop_ok o) -> rreplay h c ->
  ((forall id r, c id = Some r -> ~ covers_row r x) -> PhaseBasedGetState (after h) m x = Ok None) /\
  (forall r, c (rg_id r) = Some r -> covers_row r x ->
    match ProviderGetPhase m (rg_id r) with
    | None => PhaseBasedGetState (after h) m x = Ok None
    | Some pr =>
        (has_phase r (p_state pr) /\ (forall n d, p_next pr = Some (n, d) -> has_phase r n) ->
         exists s, PhaseBasedGetState (after h) m x = Ok (Some s) /\
           (forall v, assigns_row r (p_state pr) x v <-> v = p_state s) /\
           match p_next pr, p_next s with
           | None, None => True
           | Some (n, d), Some (nv, d') => d' = d /\ forall v, assigns_row r n x v <-> v = nv
           | _, _ => False
           end) /\
        (~ (has_phase r (p_state pr) /\ (forall n d, p_next pr = Some (n, d) -> has_phase r n)) ->
         PhaseBasedGetState (after h) m x = Throw)
    end).
Proof.
  intros R H. destruct (ring_book_lookup_partial h c R H) as (_ & _ & _ & L1 & L2 & _). destruct (rbook_run h c R H) as [I J].
  unfold PhaseBasedGetState. split.
  - intro G. apply L2 in G. rewrite G. reflexivity.
  - intros r Hr Hx. assert (Rok : ring_ok r). { rewrite <- J in Hr. apply (ri_id _ I _ _ Hr). }
    destruct (ring_row_facts r x Rok Hx) as [Nd Cv].
    assert (F : FindPhaseRingRow (after h) x = Ok (Some r)) by (apply L1; auto). rewrite F. cbn [obind].
    destruct (ProviderGetPhase m (rg_id r)) as [pr|]; [|reflexivity].
    destruct (state_in_ok ph_row r x Cv pr) as [S1 S2]. split.
    + intro K. destruct (S1 K) as (s & E & A & B). rewrite E. exists s. split; [reflexivity|]. split.
      * intro v. split; [|intros ->; exact A]. intro V. apply (assigns_fun ph_row r x Rok Nd (p_state pr)); [exact V|exact A].
      * destruct (p_next pr) as [[n d]|], (p_next s) as [[nv d']|]; auto. destruct B as [B1 B2]. split; auto.
        intro v. split; [|intros ->; exact B2]. intro V. apply (assigns_fun ph_row r x Rok Nd n); [exact V|exact B2].
    + intro K. rewrite (S2 K). reflexivity.
Qed.
Print Assumptions phase_based_state.

(** The discrete provider does the same, except that it answers with the manually
    set state where there is no ring or no current phase. *)
Theorem phased_discrete_state h c m manual x :
  (forall o, In o h -> rop_ok o) -> rreplay h c ->
  ((forall id r, c id = Some r -> ~ covers_rule r x) -> PhasedDiscreteGetState (after h) m manual x = Ok (manual x)) /\
  (forall r, c (rg_id r) = Some r -> covers_rule r x ->
    match ProviderGetPhase m (rg_id r) with
    | None => PhasedDiscreteGetState (after h) m manual x = Ok (manual x)
    | Some pr =>
        (has_phase r (p_state pr) /\ (forall n d, p_next pr = Some (n, d) -> has_phase r n) ->
         exists s, PhasedDiscreteGetState (after h) m manual x = Ok (Some s) /\
           (forall v, assigns_rule r (p_state pr) x v <-> v = p_state s) /\
           match p_next pr, p_next s with
           | None, None => True
           | Some (n, d), Some (nv, d') => d' = d /\ forall v, assigns_rule r n x v <-> v = nv
           | _, _ => False
           end) /\
        (~ (has_phase r (p_state pr) /\ (forall n d, p_next pr = Some (n, d) -> has_phase r n)) ->
         PhasedDiscreteGetState (after h) m manual x = Throw)
    end).
Proof.
  intros R H. destruct (ring_book_lookup_partial h c R H) as (_ & _ & _ & _ & _ & L1 & L2). destruct (rbook_run h c R H) as [I J].
  unfold PhasedDiscreteGetState. split.
  - intro G. apply L2 in G. rewrite G. reflexivity.
  - intros r Hr Hx. assert (Rok : ring_ok r). { rewrite <- J in Hr. apply (ri_id _ I _ _ Hr). }
    destruct (ring_rule_facts r x Rok Hx) as [Nd Cv].
    assert (F : FindPhaseRingRule (after h) x = Ok (Some r)) by (apply L1; auto). rewrite F. cbn [obind].
    destruct (ProviderGetPhase m (rg_id r)) as [pr|]; [|reflexivity].
    destruct (state_in_ok ph_disc r x Cv pr) as [S1 S2]. split.
    + intro K. destruct (S1 K) as (s & E & A & B). rewrite E. exists s. split; [reflexivity|]. split.
      * intro v. split; [|intros ->; exact A]. intro V. apply (assigns_fun ph_disc r x Rok Nd (p_state pr)); [exact V|exact A].
      * destruct (p_next pr) as [[n d]|], (p_next s) as [[nv d']|]; auto. destruct B as [B1 B2]. split; auto.
        intro v. split; [|intros ->; exact B2]. intro V. apply (assigns_fun ph_disc r x Rok Nd n); [exact V|exact B2].
    + intro K. rewrite (S2 K). reflexivity.
Qed.
Print Assumptions phased_discrete_state.

Example phased_state_example :
  PhaseBasedGetState (after [AddR 0 rAB; AddR 5 rC]) [(30, mk_presult 2 (Some (1, Some 4%Q)))] 8 = Ok (Some (mk_presult 0 (Some (1, Some 4%Q)))) /\
  PhasedDiscreteGetState (after [AddR 0 rAB; AddR 5 rC]) [(30, mk_presult 2 None)] (fun _ => None) 20 = Ok (Some (mk_presult 4 None)) /\
  PhaseBasedGetState (after [AddR 0 rAB]) [(30, mk_presult 77 None)] 8 = Throw.
Proof. repeat split. Qed.

(** Finding: "defined exactly when the rule's ring exists in the book and has a
    current phase" is false of the discrete provider, which falls back to the
    manually set state; and a ring accepted by the constructor with a foreign next
    phase makes GetState throw under the default provider. *)
Theorem phased_discrete_undefined_refuted :
  exists b m manual x s, PhasedDiscreteGetState b m manual x = Ok (Some s) /\ FindPhaseRingRule b x = Ok None.
Proof. exists rb_empty, [], (fun _ => Some (mk_presult 6 None)), 20. eexists. split; reflexivity. Qed.
Print Assumptions phased_discrete_undefined_refuted.

Theorem default_provider_state_refuted :
  exists ps n r m x, PhaseRing 40 ps (Some n) = Ok r /\ covers_row r x /\
    GetDefaultPhaseProvider (fun _ => 0) (after [AddR 0 r]) = Ok m /\ PhaseBasedGetState (after [AddR 0 r]) m x = Throw.
Proof.
  exists [mk_phase 1 [(7, 0)] [] None], [(1, [(99, None)])]. eexists. eexists. exists 7.
  split; [reflexivity|]. split.
  - exists (mk_phase 1 [(7, 0)] [] None). cbn. auto.
  - split; reflexivity.
Qed.
Print Assumptions default_provider_state_refuted.
