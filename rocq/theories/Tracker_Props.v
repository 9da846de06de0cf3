(** C51 and C52: change notification and cached evaluation. *)
From Coq Require Import List Bool Arith ZArith Lia.
From Verif Require Import Base Maps Tracker_Model Tracker_Spec Tracker_Proofs Tracker_Proofs2.
Import ListNotations.

(** ** C51 *)
Lemma unmarked_closed {V} ev (s : context V) : (forall y, last_event (trackers (deps s) y) <> ev) -> closed ev s.
Proof. intros F y z M. exfalso. exact (F y M). Qed.

(** A change event nobody has seen: the notification ends, on cyclic graphs too; exactly the
    entries of the trackers downstream of [x], the one of [x] itself excepted, become out of
    date; values, serial numbers and sources stay. *)
Theorem note_value_change_invalidates {V} (s : context V) ev x :
  in_range (deps s) -> x < size (deps s) -> (forall y, last_event (trackers (deps s) y) <> ev) ->
  exists s', NoteValueChange ev s x = Ok s' /\ same_graph (deps s) (deps s') /\ sources s' = sources s /\ frozen s' = frozen s /\
  forall e, value (cache s' e) = value (cache s e) /\ serial (cache s' e) = serial (cache s e) /\ disabled (cache s' e) = disabled (cache s e) /\
  (out_of_date (cache s' e) = true <-> out_of_date (cache s e) = true \/ exists y, y <> x /\ downstream (deps s) x y /\ cached (trackers (deps s) y) = Some e).
Proof.
  intros R L F. destruct (note_value_ok ev s x R L (unmarked_closed ev s F)) as (s' & E & S1 & _ & _ & _ & O & _).
  exists s'. split; auto. split; [apply (st_graph _ _ S1)|]. split; [apply (st_sources _ _ S1)|]. split; [apply (st_frozen _ _ S1)|].
  intro e. destruct (st_entry _ _ S1 e) as (A & B & C). repeat split; auto.
  - intro X. apply O in X. destruct X as [X|(y & _ & A1 & _ & A2 & A3)]; auto. right. exists y. auto.
  - intros [X|(y & A1 & A2 & A3)]; apply O; auto. right. exists y. repeat split; auto; apply F.
Qed.
Print Assumptions note_value_change_invalidates.

(** The notification goes along every subscription downstream once, and along no other. *)
Theorem note_value_change_once {V} (s s' : context V) ev x :
  in_range (deps s) -> x < size (deps s) -> (forall y, last_event (trackers (deps s) y) <> ev) -> NoteValueChange ev s x = Ok s' ->
  (forall y, y = x \/ downstream (deps s) x y -> n_sent (trackers (deps s') y) = n_sent (trackers (deps s) y) + length (subs (trackers (deps s) y)) /\ last_event (trackers (deps s') y) = ev) /\
  (forall y, y <> x -> ~ downstream (deps s) x y -> n_sent (trackers (deps s') y) = n_sent (trackers (deps s) y) /\ last_event (trackers (deps s') y) = last_event (trackers (deps s) y)).
Proof.
  intros R L F E. destruct (note_value_ok ev s x R L (unmarked_closed ev s F)) as (s1 & E1 & S1 & _ & M & La & _ & N). rewrite E in E1. injection E1 as <-. unfold tracker_of in *.
  split; intros y.
  - intro D. assert (My : marked ev s' y) by (apply M; auto). split; auto. rewrite N. unfold marked, tracker_of in My. rewrite My, Z.eqb_refl. destruct (Z.eqb_spec (last_event (trackers (deps s) y)) ev) as [X|X]; auto. destruct (F y X).
  - intros A B. assert (My : ~ marked ev s' y). { intro X. apply M in X. destruct X as [X|[X|X]]; [destruct (F y X)|tauto|tauto]. }
    split; [|apply La; auto]. rewrite N. unfold marked, tracker_of in My. destruct (Z.eqb _ _); [lia|]. destruct (Z.eqb_spec (last_event (trackers (deps s') y)) ev); [tauto|lia].
Qed.
Print Assumptions note_value_change_once.

(** The same event reported again, by [x] or by anything downstream, has no effect on the
    cache. *)
Theorem repeated_event_ignored {V} (s s' : context V) ev x y :
  in_range (deps s) -> x < size (deps s) -> y < size (deps s) -> (forall z, last_event (trackers (deps s) z) <> ev) -> NoteValueChange ev s x = Ok s' -> y = x \/ downstream (deps s) x y ->
  exists s'', NoteValueChange ev s' y = Ok s'' /\ forall e, cache s'' e = cache s' e.
Proof.
  intros R L Ly F E D. destruct (note_value_ok ev s x R L (unmarked_closed ev s F)) as (s1 & E1 & S1 & Cl & M & _). rewrite E in E1. injection E1 as <-.
  assert (My : marked ev s' y) by (apply M; auto). unfold NoteValueChange. unfold marked in My.
  set (s1 := on_tracker y note_value s'). assert (X : last_event (tracker_of s1 y) = ev). { unfold s1. rewrite tracker_on, Nat.eqb_refl. cbn. auto. }
  rewrite X, Z.eqb_refl. eexists. split; [reflexivity|]. reflexivity.
Qed.
Print Assumptions repeated_event_ignored.

(** Graphs built by creating trackers, subscribing and unsubscribing are consistent. *)
Theorem built_graphs_consistent g : built g -> mirrored g /\ in_range g.
Proof. intro B. destruct (built_ok g B) as (A & C & _). auto. Qed.
Print Assumptions built_graphs_consistent.
(** Unsubscribing takes away one subscription and fails exactly if there is none. *)
Theorem unsubscribe_removes_one g x p : built g ->
  (~ In p (prereqs (trackers g x)) -> UnsubscribeFromPrerequisite x p g = Throw) /\
  (In p (prereqs (trackers g x)) -> exists g', UnsubscribeFromPrerequisite x p g = Ok g' /\
    forall a b, count_occ Nat.eq_dec (prereqs (trackers g a)) b = count_occ Nat.eq_dec (prereqs (trackers g' a)) b + (if Nat.eqb a x && Nat.eqb b p then 1 else 0)).
Proof.
  intro B. destruct (built_ok g B) as (M & _). pose proof (unsubscribe_spec x p g M) as U. destruct (in_dec _ _ _) as [I|I].
  - split; [tauto|]. intros _. destruct U as (g' & E & _ & _ & _ & P). eauto.
  - split; [auto|tauto].
Qed.
Print Assumptions unsubscribe_removes_one.

(** ** C52 *)
Section C52.
Context {V : Type}.
Variables (calc : nat -> prog V) (ne ns : nat) (ticket eticket rank : nat -> nat).

(** After any history: an evaluation that returns gives what the calculator gives with
    everything recomputed from the sources as last set; one that throws does so because the
    calculation throws, or because the cache is frozen and the entry would have to be
    recomputed. *)
Theorem cached_values_current fuel cs (s0 : context V) : declared calc ne ns ticket eticket (deps s0) -> acyclic calc ne rank -> (forall e, e < ne -> rank e < fuel) ->
  fresh s0 -> Forall (good_call ne ns) cs ->
  exists s, do_calls calc ticket fuel cs s0 = Ok s /\ (forall j, sources s j = sources_after cs (sources s0) j) /\
  forall e, e < ne -> exists s' b, EvalAbstract calc fuel s e = Ok (s', b) /\
  (b = true -> gives calc (sources s) (calc e) (value (cache s' e))) /\
  (b = false -> fails calc (sources s) (calc e) \/ frozen s = true /\ needs_recomputation (cache s e) = true).
Proof.
  intros D A Fu Fr Go. destruct (calls_ok calc ne ns ticket eticket rank (deps s0) A D fuel Fu cs s0 Go (fresh_inv calc ne (deps s0) s0 eq_refl Fr)) as (s & E & [_ Ri _ _] & So).
  exists s. split; auto. split; auto. intros e L.
  assert (Rg : forall e e', e < ne -> may_eval (calc e) e' -> e' < ne) by (destruct D as (_ & _ & _ & _ & H); intros; eapply H; eauto).
  destruct (eval_spec calc ne rank A Rg fuel e L (Fu e L) s) as (s' & b & Ev & Sm & _ & Ri' & _ & _ & T & F); [auto|].
  exists s', b. split; auto. split.
  - intro X. rewrite <- (sm_sources _ _ Sm). apply Ri'; auto.
  - intro X. destruct (F X) as [?|(? & ? & _)]; auto.
Qed.

(** If the calculation has a value, the evaluation returns it, unless the cache is frozen. *)
Corollary cached_evaluation_returns fuel cs (s0 s : context V) e v : declared calc ne ns ticket eticket (deps s0) -> acyclic calc ne rank -> (forall e, e < ne -> rank e < fuel) ->
  fresh s0 -> Forall (good_call ne ns) cs -> do_calls calc ticket fuel cs s0 = Ok s -> frozen s = false -> e < ne -> gives calc (sources s) (calc e) v ->
  exists s', EvalAbstract calc fuel s e = Ok (s', true) /\ value (cache s' e) = v.
Proof.
  intros D A Fu Fr Go E Fz L G. destruct (cached_values_current fuel cs s0 D A Fu Fr Go) as (s1 & E1 & _ & H). rewrite E in E1. injection E1 as <-.
  destruct (H e L) as (s' & b & Ev & T & F). destruct b.
  - exists s'. split; auto. eapply gives_fun; eauto.
  - destruct (F eq_refl) as [X|[X _]]; [destruct (gives_not_fails calc _ _ _ G X)|congruence].
Qed.

(** An evaluation leaves sources, graph and flags alone; an entry whose serial number is as
    before has its value as before; what was up to date stays so; after success the entry is
    up to date and, unless its caching is disabled, the next evaluation computes nothing. *)
Theorem evaluation_effects fuel cs (s0 s s' : context V) e b : declared calc ne ns ticket eticket (deps s0) -> acyclic calc ne rank -> (forall e, e < ne -> rank e < fuel) ->
  fresh s0 -> Forall (good_call ne ns) cs -> do_calls calc ticket fuel cs s0 = Ok s -> e < ne -> EvalAbstract calc fuel s e = Ok (s', b) ->
  deps s' = deps s /\ sources s' = sources s /\ frozen s' = frozen s /\
  (forall e', serial (cache s e') <= serial (cache s' e') /\ (serial (cache s' e') = serial (cache s e') -> value (cache s' e') = value (cache s e')) /\
     disabled (cache s' e') = disabled (cache s e') /\ (out_of_date (cache s e') = false -> out_of_date (cache s' e') = false)) /\
  (b = true -> out_of_date (cache s' e) = false /\ (disabled (cache s e) = false -> EvalAbstract calc fuel s' e = Ok (s', true))).
Proof.
  intros D A Fu Fr Go E L Ev. destruct (calls_ok calc ne ns ticket eticket rank (deps s0) A D fuel Fu cs s0 Go (fresh_inv calc ne (deps s0) s0 eq_refl Fr)) as (s1 & E1 & [_ Ri _ _] & _). rewrite E in E1. injection E1 as <-.
  assert (Rg : forall e e', e < ne -> may_eval (calc e) e' -> e' < ne) by (destruct D as (_ & _ & _ & _ & H); intros; eapply H; eauto).
  destruct (eval_spec calc ne rank A Rg fuel e L (Fu e L) s) as (s1 & b1 & Ev1 & Sm & _ & _ & Sv & Oo & T & F); [auto|]. rewrite Ev in Ev1. injection Ev1 as <- <-.
  split; [apply (sm_deps _ _ Sm)|]. split; [apply (sm_sources _ _ Sm)|]. split; [apply (sm_frozen _ _ Sm)|]. split.
  - intro e'. split; [apply (sm_serial _ _ Sm)|]. split; [apply Sv|]. split; [apply (sm_disabled _ _ Sm)|apply Oo].
  - intro B. split; auto. intro Di. assert (fuel > 0) by (specialize (Fu e L); lia). destruct fuel as [|k]; [lia|]. cbn [EvalAbstract]. unfold needs_recomputation. rewrite (T B), (sm_disabled _ _ Sm), Di. auto.
Qed.
End C52.
Print Assumptions cached_values_current.
Print Assumptions cached_evaluation_returns.
Print Assumptions evaluation_effects.

(** ** Examples: sources 0 and 1, entry 0 = source 0 + 1 (throws on 9), entry 1 = entry 0 *
    source 1.  Trackers 0, 1: sources; 2, 3: entries. *)
Definition ex_calc (e : nat) : prog nat :=
  match e with
  | 0 => ReadSource 0 (fun v => Write 77 (if Nat.eqb v 9 then Raise else Return (v + 1)))
  | 1 => EvalEntry 0 (fun v => ReadSource 1 (fun w => Return (v * w)))
  | _ => Return 0
  end.
Definition ex_graph : graph :=
  SubscribeToPrerequisite 3 1 (SubscribeToPrerequisite 3 2 (SubscribeToPrerequisite 2 0
  (fst (CreateNewDependencyTracker (Some 1) (fst (CreateNewDependencyTracker (Some 0) (fst (CreateNewDependencyTracker None (fst (CreateNewDependencyTracker None empty_graph)))))))))).
Example ex_built : built ex_graph.
Proof. repeat (first [apply built_subscribe; [cbn; lia|cbn; lia|]|apply built_create]); apply built_empty. Qed.
Definition ex_context : context nat := mk_context ex_graph (fun _ => mk_entry 0 0 true false) false (fun i => i + 3) 0.
Example ex_declared : declared ex_calc 2 2 (fun i => i) (fun e => e + 2) (deps ex_context).
Proof.
  split; [apply (built_ok _ ex_built)|]. split; [intros [|[|i]] L; [cbn; auto|cbn; auto|lia]|]. split; [intros [|[|e]] L; [reflexivity|reflexivity|lia]|]. split.
  - intros [|[|e]] i L M; [| |lia]; cbn in M.
    + inversion M as [|? ? v ? M1| |]; subst; [split; [lia|apply down_one; cbn; auto]|]. exfalso. inversion M1; subst. destruct (Nat.eqb v 9); inversion H2.
    + inversion M as [| | |? ? v ? M1]; subst. inversion M1 as [|? ? w ? M2| |]; subst; [split; [lia|apply down_one; cbn; auto]|]. inversion M2.
  - intros [|[|e]] e' L M; [| |lia]; cbn in M.
    + exfalso. inversion M as [| | |? ? v ? M1]; subst. inversion M1; subst. destruct (Nat.eqb v 9); inversion H2.
    + inversion M as [|? ? v ? M1| |]; subst; [split; [lia|apply down_one; cbn; auto]|]. exfalso. inversion M1 as [| | |? ? w ? M2]; subst. inversion M2.
Qed.
Example ex_acyclic : acyclic ex_calc 2 (fun e => e).
Proof.
  intros [|[|e]] e' L M; [| |lia]; cbn in M.
  - exfalso. inversion M as [| | |? ? v ? M1]; subst. inversion M1; subst. destruct (Nat.eqb v 9); inversion H2.
  - inversion M as [|? ? v ? M1| |]; subst; [lia|]. exfalso. inversion M1 as [| | |? ? w ? M2]; subst. inversion M2.
Qed.
Example ex_fresh : fresh ex_context.
Proof.
  split; [auto|]. split; [cbn; lia|]. intro x. cbn. unfold upd. repeat (match goal with |- context [Nat.eqb ?a ?b] => destruct (Nat.eqb a b) end; cbn); lia.
Qed.
(** Evaluations, changes, an exception, a clone and disabled caching. *)
Definition ex_calls : list (call nat) := [Evaluate 1; Change [(0, 9); (1, 5)]; Evaluate 1; DisableEntry 0; Change [(0, 1)]; Clone; Evaluate 1; FreezeCache; UnfreezeCache; EnableCaching; Change [(1, 7)]].
Example ex_good : Forall (good_call 2 2) ex_calls.
Proof. repeat constructor; cbn; lia. Qed.
Example ex_result : omap (fun s => omap (fun r => (snd r, value (cache (fst r) 0), value (cache (fst r) 1), serial (cache (fst r) 0))) (EvalAbstract ex_calc 2 s 1)) (do_calls ex_calc (fun i => i) 2 ex_calls ex_context)
  = Ok (Ok (true, 2, 14, 3)).
Proof. vm_compute. reflexivity. Qed.
(** C51's hypotheses on a graph with a cycle (2 and 3 depend on each other). *)
Definition cyc_context : context nat := mk_context (SubscribeToPrerequisite 2 3 ex_graph) (fun _ => mk_entry 0 0 false false) false (fun _ => 0) 0.
Example cyc_hyps : in_range (deps cyc_context) /\ 0 < size (deps cyc_context) /\ forall y, last_event (trackers (deps cyc_context) y) <> 1%Z.
Proof.
  assert (B : built (deps cyc_context)) by (apply built_subscribe; [cbn; lia|cbn; lia|apply ex_built]). split; [apply (built_ok _ B)|]. split; [cbn; lia|].
  intro y. cbn. unfold upd. repeat (match goal with |- context [Nat.eqb ?a ?b] => destruct (Nat.eqb a b) end; cbn); lia.
Qed.
Example cyc_result : omap (fun s => (out_of_date (cache s 0), out_of_date (cache s 1))) (NoteValueChange 1 cyc_context 0) = Ok (true, true) /\
  omap (fun s => (out_of_date (cache s 0), out_of_date (cache s 1))) (NoteValueChange 1 cyc_context 2) = Ok (false, true).
Proof. vm_compute. auto. Qed.
Example unsubscribe_example : In 2 (prereqs (trackers ex_graph 3)) /\ ~ In 0 (prereqs (trackers ex_graph 3)).
Proof. cbn. intuition lia. Qed.
