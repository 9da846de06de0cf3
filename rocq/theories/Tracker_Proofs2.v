(** Proofs for C51 (subscriptions) and C52: cached evaluation. *)
From Coq Require Import List Bool Arith ZArith Lia.
From Verif Require Import Base Maps Tracker_Model Tracker_Spec Tracker_Proofs.
Import ListNotations.

Lemma remove_spec v l : match Remove v l with
  | Some l' => In v l /\ forall w, count_occ Nat.eq_dec l w = count_occ Nat.eq_dec l' w + (if Nat.eq_dec v w then 1 else 0)
  | None => ~ In v l end.
Proof.
  induction l as [|x l IH]; cbn [Remove]; [intros []|]. destruct (Nat.eqb_spec x v) as [->|D].
  - split; [cbn; auto|]. intro w. cbn [count_occ]. destruct (Nat.eq_dec v w); lia.
  - destruct (Remove v l) as [l'|].
    + destruct IH as [A B]. split; [cbn; auto|]. intro w. cbn [count_occ]. rewrite B. destruct (Nat.eq_dec x w), (Nat.eq_dec v w); lia.
    + intros [E|E]; auto.
Qed.
Lemma subscribe_mirrored x p g : mirrored g -> mirrored (SubscribeToPrerequisite x p g).
Proof.
  intros M a b. specialize (M a b). unfold SubscribeToPrerequisite, at_tracker. cbn [trackers]. unfold upd.
  assert (P : forall t l, prereqs (set_subs l t) = prereqs t) by reflexivity. assert (S0 : forall t l, subs (set_prereqs l t) = subs t) by reflexivity.
  destruct (Nat.eqb_spec a p), (Nat.eqb_spec b p), (Nat.eqb_spec p x), (Nat.eqb_spec a x), (Nat.eqb_spec b x); subst; try congruence; cbn [prereqs subs set_subs set_prereqs]; rewrite ?count_occ_app; cbn [count_occ];
  repeat destruct (Nat.eq_dec _ _); subst; try congruence; try lia.
Qed.
Lemma unsubscribe_spec x p g : mirrored g ->
  if in_dec Nat.eq_dec p (prereqs (trackers g x)) then exists g', UnsubscribeFromPrerequisite x p g = Ok g' /\ mirrored g' /\ size g' = size g /\
    (forall y, cached (trackers g' y) = cached (trackers g y)) /\
    forall a b, count_occ Nat.eq_dec (prereqs (trackers g a)) b = count_occ Nat.eq_dec (prereqs (trackers g' a)) b + (if Nat.eqb a x && Nat.eqb b p then 1 else 0)
  else UnsubscribeFromPrerequisite x p g = Throw.
Proof.
  intros M. unfold UnsubscribeFromPrerequisite. pose proof (remove_spec p (prereqs (trackers g x))) as R. destruct (Remove p (prereqs (trackers g x))) as [l|]; destruct (in_dec _ _ _) as [I|I]; try tauto.
  destruct R as [_ R]. set (g1 := at_tracker x (set_prereqs l) g).
  assert (Sb : subs (trackers g1 p) = subs (trackers g p)). { unfold g1, at_tracker. cbn. unfold upd. destruct (Nat.eqb_spec p x) as [->|]; auto. }
  rewrite Sb. pose proof (remove_spec x (subs (trackers g p))) as Q. destruct (Remove x (subs (trackers g p))) as [m|].
  - destruct Q as [_ Q]. eexists. split; [reflexivity|].
    assert (Pr : forall a, prereqs (trackers (at_tracker p (set_subs m) g1) a) = if Nat.eqb a x then l else prereqs (trackers g a)).
    { intro a. unfold g1, at_tracker. cbn. unfold upd. destruct (Nat.eqb_spec a p), (Nat.eqb_spec p x), (Nat.eqb_spec a x); subst; try congruence; auto. }
    assert (Su : forall b, subs (trackers (at_tracker p (set_subs m) g1) b) = if Nat.eqb b p then m else subs (trackers g b)).
    { intro b. unfold g1, at_tracker. cbn. unfold upd. destruct (Nat.eqb_spec b p), (Nat.eqb_spec p x), (Nat.eqb_spec b x); subst; try congruence; auto. }
    split; [|split; [reflexivity|split]].
    + intros a b. rewrite Pr, Su. specialize (M a b). specialize (R b). specialize (Q a). destruct (Nat.eqb_spec a x), (Nat.eqb_spec b p); subst; repeat destruct (Nat.eq_dec _ _); try congruence; lia.
    + intro y. unfold g1, at_tracker. cbn. unfold upd. destruct (Nat.eqb_spec y p), (Nat.eqb_spec p x), (Nat.eqb_spec y x); subst; try congruence; auto.
    + intros a b. rewrite Pr. specialize (R b). destruct (Nat.eqb_spec a x), (Nat.eqb_spec b p); subst; cbn [andb]; repeat destruct (Nat.eq_dec _ _); try congruence; lia.
  - exfalso. apply (count_occ_In Nat.eq_dec) in I. rewrite (M x p) in I. apply (count_occ_In Nat.eq_dec) in I. auto.
Qed.

Section Eval.
Context {V : Type}.
Variable calc : nat -> prog V.
Implicit Types s : context V.

Lemma gives_fun src p v : gives calc src p v -> forall w, gives calc src p w -> w = v.
Proof.
  induction 1; intros u G; inversion G; subst; auto.
  match goal with A : gives calc src (calc e) ?x |- _ => rename x into w0; assert (w0 = w) by auto; subst w0 end. auto.
Qed.
Lemma gives_not_fails src p v : gives calc src p v -> fails calc src p -> False.
Proof.
  induction 1; intro F; inversion F; subst; auto.
  match goal with A : gives calc src (calc e) ?x, B : fails calc src (k ?x) |- _ => assert (x = w) by (eapply gives_fun; eauto); subst x end. auto.
Qed.

Variables (ne ns : nat) (rank : nat -> nat).
Hypothesis Acyclic : acyclic calc ne rank.
Hypothesis Range : forall e e', e < ne -> may_eval (calc e) e' -> e' < ne.

Definition right s (e : nat) : Prop := out_of_date (cache s e) = false -> gives calc (sources s) (calc e) (value (cache s e)).
Record same s s' : Prop := {
  sm_deps : deps s' = deps s; sm_frozen : frozen s' = frozen s; sm_sources : sources s' = sources s; sm_event : current_event s' = current_event s;
  sm_disabled : forall e, disabled (cache s' e) = disabled (cache s e);
  sm_serial : forall e, serial (cache s e) <= serial (cache s' e) }.
Lemma same_refl s : same s s.
Proof. split; auto. Qed.
Lemma same_trans s s' s'' : same s s' -> same s' s'' -> same s s''.
Proof. intros [A1 A2 A3 A4 A5 A6] [B1 B2 B3 B4 B5 B6]. split; try congruence. intro e. specialize (A6 e). specialize (B6 e). lia. Qed.
Lemma cache_at e f s e' : cache (at_entry e f s) e' = if Nat.eqb e' e then f (cache s e) else cache s e'.
Proof. unfold at_entry, with_cache. cbn. unfold upd. destruct (Nat.eqb_spec e' e); subst; auto. Qed.
Lemma same_at e f s : (forall c, disabled (f c) = disabled c /\ serial c <= serial (f c)) -> same s (at_entry e f s).
Proof. intro H. split; auto; intro e'; rewrite cache_at; destruct (Nat.eqb_spec e' e) as [->|]; auto; apply H. Qed.

Definition eval_ok (ev : context V -> nat -> outcome (context V * bool)) (e : nat) : Prop := forall s,
  (forall e', e' < ne -> e' = e \/ rank e' < rank e -> right s e') ->
  exists s' b, ev s e = Ok (s', b) /\ same s s' /\
  (forall e', ~ (e' = e \/ rank e' < rank e) -> cache s' e' = cache s e') /\
  (forall e', e' < ne -> e' = e \/ rank e' < rank e -> right s' e') /\
  (forall e', serial (cache s' e') = serial (cache s e') -> value (cache s' e') = value (cache s e')) /\
  (forall e', out_of_date (cache s e') = false -> out_of_date (cache s' e') = false) /\
  (b = true -> out_of_date (cache s' e) = false) /\
  (b = false -> fails calc (sources s) (calc e) \/ frozen s = true /\ needs_recomputation (cache s e) = true /\ s' = s).

Lemma run_ok ev e p : (forall e', may_eval p e' -> e' < ne /\ rank e' < rank e /\ eval_ok ev e') -> forall s,
  frozen s = false -> (forall e', e' < ne -> rank e' < rank e -> right s e') ->
  exists s' b, run ev e p s = Ok (s', b) /\ same s s' /\
  (forall e', ~ (e' = e \/ rank e' < rank e) -> cache s' e' = cache s e') /\
  (forall e', e' < ne -> rank e' < rank e -> right s' e') /\
  (forall e', e' <> e -> serial (cache s' e') = serial (cache s e') -> value (cache s' e') = value (cache s e')) /\
  (forall e', e' <> e -> out_of_date (cache s e') = false -> out_of_date (cache s' e') = false) /\
  out_of_date (cache s' e) = out_of_date (cache s e) /\
  (b = true -> gives calc (sources s) p (value (cache s' e))) /\ (b = false -> fails calc (sources s) p).
Proof.
  assert (At : forall s v, (forall e', e' < ne -> rank e' < rank e -> right s e') -> (forall e', e' < ne -> rank e' < rank e -> right (at_entry e (set_value v) s) e')).
  { intros s v H e' L R. unfold right. rewrite cache_at. destruct (Nat.eqb_spec e' e) as [->|]; [lia|]. apply H; auto. }
  induction p as [v| |v k IH|i k IH|e0 k IH]; intros P s Fz Ri; cbn [run].
  - exists (at_entry e (set_value v) s), true. split; auto. split; [apply same_at; cbn; auto|]. split; [|split; [auto|split; [|split; [|split; [|split]]]]].
    + intros e' D. rewrite cache_at. destruct (Nat.eqb_spec e' e); [tauto|auto].
    + intros e' D. rewrite cache_at. destruct (Nat.eqb_spec e' e); [tauto|auto].
    + intros e' D. rewrite cache_at. destruct (Nat.eqb_spec e' e); [tauto|auto].
    + rewrite cache_at, Nat.eqb_refl. auto.
    + intros _. rewrite cache_at, Nat.eqb_refl. apply gives_return.
    + discriminate.
  - exists s, false. repeat split; auto; try discriminate. intros _. apply fails_raise.
  - destruct (IH (fun e' H => P e' (eval_write v k e' H)) (at_entry e (set_value v) s)) as (s' & b & E & A1 & A2 & A3 & A4 & A5 & A6 & A7 & A8); auto.
    exists s', b. split; auto. split; [eapply same_trans; [apply same_at|exact A1]; cbn; auto|]. split; [|split; [auto|split; [|split; [|split; [|split]]]]].
    + intros e' D. rewrite (A2 e' D), cache_at. destruct (Nat.eqb_spec e' e); [tauto|auto].
    + intros e' D. specialize (A4 e' D). rewrite cache_at in A4. destruct (Nat.eqb_spec e' e); [tauto|auto].
    + intros e' D. specialize (A5 e' D). rewrite cache_at in A5. destruct (Nat.eqb_spec e' e); [tauto|auto].
    + rewrite A6, cache_at, Nat.eqb_refl. auto.
    + intro B. apply gives_write. apply A7. auto.
    + intro B. apply fails_write. apply A8. auto.
  - destruct (IH (sources s i) (fun e' H => P e' (eval_read i k _ e' H)) s) as (s' & b & E & A1 & A2 & A3 & A4 & A5 & A6 & A7 & A8); auto.
    exists s', b. repeat split; auto; try apply A1; intro B; [apply gives_read; auto|apply fails_read; auto].
  - destruct (P e0 (eval_here e0 k)) as (L0 & R0 & EO). destruct (EO s) as (s1 & b1 & -> & B1 & B2 & B3 & B4 & B5 & B6 & B7).
    { intros e' L [->|R]; apply Ri; auto; lia. }
    cbn [obind fst snd]. assert (Ne : e0 <> e) by (intros ->; lia).
    assert (Ee : cache s1 e = cache s e) by (apply B2; intros [->|R]; lia).
    assert (Ri1 : forall e', e' < ne -> rank e' < rank e -> right s1 e').
    { intros e' L R. destruct (lt_dec (rank e') (rank e0)) as [D|D]; [apply B3; auto|]. destruct (Nat.eq_dec e' e0) as [->|D']; [apply B3; auto|]. unfold right. rewrite (B2 e') by tauto. rewrite (sm_sources _ _ B1). apply Ri; auto. }
    destruct b1.
    + assert (G0 : gives calc (sources s) (calc e0) (value (cache s1 e0))). { rewrite <- (sm_sources _ _ B1). apply B3; auto. }
      destruct (IH (value (cache s1 e0)) (fun e' H => P e' (eval_after e0 k _ e' H)) s1) as (s' & b & E & A1 & A2 & A3 & A4 & A5 & A6 & A7 & A8); auto; [rewrite (sm_frozen _ _ B1); auto|].
      exists s', b. split; auto. split; [eapply same_trans; eauto|]. split; [|split; [auto|split; [|split; [|split; [|split]]]]].
      * intros e' D. rewrite (A2 e' D). apply B2. intros [->|R]; apply D; [auto|lia].
      * intros e' D Se. pose proof (sm_serial _ _ B1 e') as S1. pose proof (sm_serial _ _ A1 e') as S2. rewrite (A4 e' D) by lia. apply B4. lia.
      * intros e' D O. apply A5; auto.
      * rewrite A6, Ee. auto.
      * intro B. apply gives_eval with (value (cache s1 e0)); auto. rewrite <- (sm_sources _ _ B1). auto.
      * intro B. apply fails_later with (value (cache s1 e0)); auto. rewrite <- (sm_sources _ _ B1). auto.
    + exists s1, false. split; auto. split; auto. split; [|split; [auto|split; [|split; [|split; [|split]]]]]; auto.
      * intros e' D. apply B2. intros [->|R]; apply D; [auto|lia].
      * rewrite Ee. auto.
      * discriminate.
      * intros _. destruct (B7 eq_refl) as [F|[F _]]; [apply fails_eval; auto|congruence].
Qed.
Lemma eval_spec fuel : forall e, e < ne -> rank e < fuel -> eval_ok (EvalAbstract calc fuel) e.
Proof.
  induction fuel as [|fuel IH]; intros e L R s Ri; [lia|]. cbn [EvalAbstract].
  destruct (needs_recomputation (cache s e)) eqn:Nr.
  2:{ exists s, true. split; auto. split; [apply same_refl|]. repeat split; auto; [|discriminate]. intros _. unfold needs_recomputation in Nr. destruct (out_of_date (cache s e)); auto. }
  destruct (frozen s) eqn:Fz.
  { exists s, false. split; auto. split; [apply same_refl|]. repeat split; auto; try discriminate. }
  destruct (run_ok (EvalAbstract calc fuel) e (calc e)) with (s := at_entry e bump_serial s) as (s1 & b & E & A1 & A2 & A3 & A4 & A5 & A6 & A7 & A8).
  - intros e' M. pose proof (Acyclic e e' L M). split; [eauto|]. split; auto. apply IH; [eauto|lia].
  - auto.
  - intros e' L' R'. unfold right. rewrite cache_at. destruct (Nat.eqb_spec e' e) as [->|]; [lia|]. apply Ri; auto.
  - rewrite E. cbn [obind fst snd]. assert (S1 : same s (at_entry e bump_serial s)) by (apply same_at; cbn; auto).
    change (sources (at_entry e bump_serial s)) with (sources s) in *. rewrite cache_at, Nat.eqb_refl in A6. change (out_of_date (bump_serial (cache s e))) with (out_of_date (cache s e)) in A6.
    assert (Se : serial (cache s e) < serial (cache s1 e)). { pose proof (sm_serial _ _ A1 e) as T. rewrite cache_at, Nat.eqb_refl in T. cbn in T. lia. }
    assert (Oth : forall e', ~ (e' = e \/ rank e' < rank e) -> cache s1 e' = cache s e'). { intros e' D. rewrite (A2 e' D), cache_at. destruct (Nat.eqb_spec e' e); [tauto|auto]. }
    assert (Val : forall e', serial (cache s1 e') = serial (cache s e') -> value (cache s1 e') = value (cache s e')).
    { intros e' T. destruct (Nat.eq_dec e' e) as [->|D]; [lia|]. specialize (A4 e' D). rewrite cache_at in A4. destruct (Nat.eqb_spec e' e); [tauto|auto]. }
    assert (Ood : forall e', e' <> e -> out_of_date (cache s e') = false -> out_of_date (cache s1 e') = false).
    { intros e' D. specialize (A5 e' D). rewrite cache_at in A5. destruct (Nat.eqb_spec e' e); [tauto|auto]. }
    pose proof (sm_sources _ _ A1) as Src. cbn in Src.
    destruct b.
    + exists (at_entry e mark_up_to_date s1), true. split; auto. split; [eapply same_trans; [exact S1|]; eapply same_trans; [exact A1|apply same_at; cbn; auto]|].
      split; [|split; [|split; [|split; [|split]]]].
      * intros e' D. rewrite cache_at. destruct (Nat.eqb_spec e' e); [tauto|auto].
      * intros e' L' R'. unfold right. rewrite cache_at. destruct (Nat.eqb_spec e' e) as [->|D].
        -- intros _. cbn. rewrite Src. auto.
        -- destruct R' as [R'|R']; [tauto|]. apply A3; auto.
      * intros e'. rewrite cache_at. destruct (Nat.eqb_spec e' e) as [->|]; [cbn; lia|auto].
      * intros e' O. rewrite cache_at. destruct (Nat.eqb_spec e' e) as [->|]; [auto|auto].
      * intros _. rewrite cache_at, Nat.eqb_refl. auto.
      * discriminate.
    + exists s1, false. split; auto. split; [eapply same_trans; eauto|]. split; [auto|]. split; [|split; [auto|split; [|split; [discriminate|auto]]]].
      * intros e' L' [->|R']; [|apply A3; auto]. intro O. rewrite A6 in O. exfalso. eapply gives_not_fails; [apply (Ri e L); auto|apply A8; auto].
      * intros e' O. destruct (Nat.eq_dec e' e) as [->|D]; [rewrite A6; auto|auto].
Qed.
End Eval.

(** ** Histories *)
Lemma sources_ext {V} l : forall (f h : nat -> V), (forall j, f j = h j) -> forall j, fold_left (fun src p i => if Nat.eqb i (fst p) then snd p else src i) l f j = fold_left (fun src p i => if Nat.eqb i (fst p) then snd p else src i) l h j.
Proof. induction l as [|[a b] l IHl]; intros f h X; cbn [fold_left]; [apply X|]. apply IHl. intro k. rewrite X. auto. Qed.
Section History.
Context {V : Type}.
Variables (calc : nat -> prog V) (ne ns : nat) (ticket eticket rank : nat -> nat) (g0 : graph).
Hypothesis Acyclic : acyclic calc ne rank.
Hypothesis Declared : declared calc ne ns ticket eticket g0.
Implicit Types s : context V.
Let Range : forall e e', e < ne -> may_eval (calc e) e' -> e' < ne.
Proof. destruct Declared as (_ & _ & _ & _ & H). intros e e' L M. apply (H e e'); auto. Qed.

(** Values do not depend on sources the entry is not downstream of. *)
Lemma gives_frame src i v e w : e < ne -> gives calc src (calc e) w -> ~ downstream g0 (ticket i) (eticket e) -> gives calc (upd src i v) (calc e) w.
Proof.
  destruct Declared as (_ & _ & _ & Rd & Ev). intros L G D.
  assert (K : forall p w, gives calc src p w -> (forall j, may_read p j -> j <> i) -> (forall e', may_eval p e' -> e' < ne /\ ~ downstream g0 (ticket i) (eticket e')) -> gives calc (upd src i v) p w).
  { clear L G D e w. assert (Cl : forall e, e < ne -> ~ downstream g0 (ticket i) (eticket e) -> (forall j, may_read (calc e) j -> j <> i) /\ (forall e', may_eval (calc e) e' -> e' < ne /\ ~ downstream g0 (ticket i) (eticket e'))).
    { intros e L D. split.
      - intros j M ->. apply D. apply (Rd e i); auto.
      - intros e' M. destruct (Ev e e' L M) as [L' D']. split; auto. intro X. apply D. eapply downstream_trans; eauto. }
    intros p w G. induction G as [v0|w k v0 G IH|j k v0 G IH|e k w v0 G1 IH1 G2 IH2]; intros R E.
    - apply gives_return.
    - apply gives_write. apply IH; [intros j M; apply R; apply read_write; auto|intros e' M; apply E; apply eval_write; auto].
    - apply gives_read. rewrite upd_neq by (intro X; apply (R j); [apply read_here|auto]). apply IH; [intros j' M; apply R; eapply read_after; eauto|intros e' M; apply E; eapply eval_read; eauto].
    - destruct (E e (eval_here e k)) as [L D]. destruct (Cl e L D) as [C1 C2]. apply gives_eval with w; [auto|]. apply IH2; [intros j M; apply R; eapply read_eval; eauto|intros e' M; apply E; eapply eval_after; eauto]. }
  apply K; auto.
  - intros j M ->. apply D. apply (Rd e i); auto.
  - intros e' M. destruct (Ev e e' L M) as [L' D']. split; auto. intro X. apply D. eapply downstream_trans; eauto.
Qed.

Definition all_right s : Prop := forall e, e < ne -> right calc s e.
Lemma set_source_sources i (v : V) s : sources (set_source i v s) = upd (sources s) i v.
Proof. reflexivity. Qed.
Lemma change_ok ev l : forall s, Forall (fun p => fst p < ns) l -> same_graph g0 (deps s) -> closed ev s ->
  (forall e, e < ne -> marked ev s (eticket e) -> out_of_date (cache s e) = true) -> all_right s ->
  (forall x, marked ev s x \/ (last_event (tracker_of s x) < ev)%Z) -> current_event s = ev ->
  exists s', change ticket ev l s = Ok s' /\ same_graph g0 (deps s') /\ all_right s' /\ (forall x, (last_event (tracker_of s' x) <= ev)%Z) /\ current_event s' = ev /\ frozen s' = frozen s /\
  (forall e, disabled (cache s' e) = disabled (cache s e) /\ value (cache s' e) = value (cache s e)) /\
  forall j, sources s' j = fold_left (fun src p i => if Nat.eqb i (fst p) then snd p else src i) l (sources s) j.
Proof.
  destruct Declared as (Rg & Tk & Et & _ & _).
  induction l as [|[i v] l IH]; intros s Fl G Cl Mk Ri La Ce; cbn [change].
  - exists s. repeat split; auto; try apply G. intro x. destruct (La x) as [M|M]; [unfold marked in M|]; lia.
  - inversion Fl as [|? ? Hi Fl']; subst. cbn [fst] in Hi. destruct (Tk i Hi) as [Ti Ci].
    destruct (note_value_ok (current_event s) s (ticket i)) as (s1 & -> & S1 & C1 & M1 & L1 & O1 & _); auto.
    + eapply in_range_same; eauto.
    + destruct G as [-> _]. auto.
    + cbn [obind]. set (ev := current_event s) in *. assert (G1 : same_graph g0 (deps s1)) by (eapply same_graph_trans; [exact G|apply (st_graph _ _ S1)]).
      assert (Dn : forall e, e < ne -> downstream g0 (ticket i) (eticket e) -> out_of_date (cache s1 e) = true).
      { intros e L D. apply O1. pose proof (downstream_same _ _ _ _ G D) as D'. destruct (marked_dec ev s (eticket e)) as [M|M]; [left; auto|]. right. exists (eticket e). split; auto.
        assert (Ce : cached (tracker_of s (eticket e)) = Some e). { destruct G as [_ G]. unfold tracker_of. destruct (G (eticket e)) as (_ & _ & ->). auto. }
        split. { intro X. rewrite <- X in Ci. rewrite (Et e L) in Ci. discriminate. }
        split; auto. intro X. apply M. eapply closed_downstream; eauto. }
      destruct (IH (set_source i v s1)) as (s' & E & A1 & A2 & A3 & A4 & A5 & A6 & A7); auto.
      * intros e L M. change (marked ev s1 (eticket e)) in M. change (out_of_date (cache s1 e) = true). apply M1 in M. destruct M as [M|[M|M]].
        -- apply O1. left. auto.
        -- rewrite <- M in Ci. rewrite (Et e L) in Ci. discriminate.
        -- apply Dn; auto. eapply downstream_same; [apply same_graph_sym; exact G|auto].
      * intros e L O. change (out_of_date (cache s1 e) = false) in O. change (gives calc (upd (sources s1) i v) (calc e) (value (cache s1 e))). apply gives_frame; auto.
        -- rewrite (st_sources _ _ S1). destruct (st_entry _ _ S1 e) as (-> & _). apply Ri; auto. destruct (out_of_date (cache s e)) eqn:X; auto. rewrite <- O. symmetry. apply O1. auto.
        -- intro D. rewrite (Dn e L D) in O. discriminate.
      * intro x. change (marked ev s1 x \/ (last_event (tracker_of s1 x) < ev)%Z). destruct (marked_dec ev s1 x) as [M|M]; auto. right. rewrite (L1 x M). destruct (La x) as [N|N]; auto. exfalso. apply M, M1. auto.
      * apply (st_event _ _ S1).
      * exists s'. split; auto. split; auto. split; auto. split; auto. split; auto. split; [rewrite A5; apply (st_frozen _ _ S1)|]. split.
        -- intro e. destruct (A6 e) as [-> ->]. destruct (st_entry _ _ S1 e) as (Y1 & _ & Y2). split; [exact Y2|exact Y1].
        -- intro j. rewrite A7. cbn [fold_left fst snd]. rewrite set_source_sources, (st_sources _ _ S1). apply sources_ext. intro k. unfold upd. destruct (Nat.eqb_spec k i); subst; auto.
Qed.

Record inv s : Prop := {
  in_graph : same_graph g0 (deps s); in_right : all_right s;
  in_event : (0 <= current_event s)%Z; in_last : forall x, (last_event (tracker_of s x) <= current_event s)%Z }.
Lemma right_all s : all_right s -> forall e e', e' < ne -> e' = e \/ rank e' < rank e -> right calc s e'.
Proof. auto. Qed.
Lemma call_ok fuel c s : good_call ne ns c -> (forall e, e < ne -> rank e < fuel) -> inv s ->
  exists s' b, do_call calc ticket fuel c s = Ok (s', b) /\ inv s' /\ forall j, sources s' j = sources_after [c] (sources s) j.
Proof.
  intros Gc Fu [G Ri Ev La]. destruct c as [l|e|e|e| | | | | |]; cbn [do_call good_call] in *.
  - destruct (change_ok (current_event s + 1)%Z l (start_new_change_event s)) as (s' & E & A1 & A2 & A3 & A4 & A5 & A6 & A7); auto.
    + intros y z M. exfalso. unfold marked in M. change (tracker_of (start_new_change_event s) y) with (tracker_of s y) in M. specialize (La y). lia.
    + intros e L M. exfalso. unfold marked in M. change (tracker_of (start_new_change_event s) (eticket e)) with (tracker_of s (eticket e)) in M. specialize (La (eticket e)). lia.
    + intro x. right. change (tracker_of (start_new_change_event s) x) with (tracker_of s x). specialize (La x). lia.
    + cbn [current_event start_new_change_event] in *. change (current_event (start_new_change_event s)) with (current_event s + 1)%Z. rewrite E. exists s', true. split; auto. split; auto. split; auto; [lia|]. intro x. rewrite A4. auto.
  - destruct (eval_spec calc ne rank Acyclic Range fuel e Gc (Fu e Gc) s) as (s' & b & -> & A1 & A2 & A3 & _); [apply right_all; auto|].
    exists s', b. split; auto. split; [|intro j; rewrite (sm_sources _ _ A1); auto]. split.
    + rewrite (sm_deps _ _ A1). auto.
    + intros e' L. destruct (Nat.eq_dec e' e) as [->|D]; [apply A3; auto|]. destruct (lt_dec (rank e') (rank e)) as [R|R]; [apply A3; auto|]. unfold right. rewrite (A2 e') by tauto. rewrite (sm_sources _ _ A1). apply Ri. auto.
    + rewrite (sm_event _ _ A1). auto.
    + intro x. unfold tracker_of. rewrite (sm_deps _ _ A1), (sm_event _ _ A1). apply La.
  - eexists _, _. split; [reflexivity|]. split; [|auto]. split; auto. intros e' L. unfold right. rewrite cache_at. destruct (Nat.eqb_spec e' e) as [->|]; apply Ri; auto.
  - eexists _, _. split; [reflexivity|]. split; [|auto]. split; auto. intros e' L. unfold right. rewrite cache_at. destruct (Nat.eqb_spec e' e) as [->|]; apply Ri; auto.
  - eexists _, _. split; [reflexivity|]. split; [|auto]. split; auto.
  - eexists _, _. split; [reflexivity|]. split; [|auto]. split; auto.
  - eexists _, _. split; [reflexivity|]. split; [|auto]. split; auto. intros e' L X. discriminate.
  - eexists _, _. split; [reflexivity|]. split; [|auto]. split; auto.
  - eexists _, _. split; [reflexivity|]. split; [|auto]. split; auto.
  - eexists _, _. split; [reflexivity|]. split; [|auto]. split; auto. cbn. lia.
Qed.
Lemma calls_ok fuel : (forall e, e < ne -> rank e < fuel) -> forall cs s, Forall (good_call ne ns) cs -> inv s ->
  exists s', do_calls calc ticket fuel cs s = Ok s' /\ inv s' /\ forall j, sources s' j = sources_after cs (sources s) j.
Proof.
  intro Fu. induction cs as [|c cs IH]; intros s F I; cbn [do_calls]; [exists s; auto|].
  inversion F as [|? ? Hc F']; subst. destruct (call_ok fuel c s Hc Fu I) as (s1 & b & -> & I1 & S1). cbn [obind fst].
  destruct (IH s1 F' I1) as (s' & E & I' & S'). exists s'. split; auto. split; auto. intro j. rewrite S'. unfold sources_after in *. cbn [fold_left] in *.
  revert S1. generalize (sources s1) (match c with Change l => fold_left (fun src p i => if Nat.eqb i (fst p) then snd p else src i) l (sources s) | _ => sources s end). clear.
  induction cs as [|c cs IHc]; intros f h X; cbn [fold_left]; [apply X|]. apply IHc. destruct c; auto. apply sources_ext. auto.
Qed.
Lemma fresh_inv s : deps s = g0 -> fresh s -> inv s.
Proof. intros D [A [B C]]. split; auto; [rewrite D; apply same_graph_refl|]. intros e L X. destruct (A e) as [Y _]. congruence. Qed.
End History.

(** ** Graphs as they are built *)
Lemma count_in l (x : nat) : In x l <-> count_occ Nat.eq_dec l x <> 0.
Proof. rewrite (count_occ_In Nat.eq_dec). lia. Qed.
Lemma built_ok g : built g -> mirrored g /\ in_range g /\ forall x, size g <= x -> trackers g x = new_tracker None.
Proof.
  induction 1 as [|c g B (M & R & O)|x p g Lx Lp B (M & R & O)|x p g g' B (M & R & O) E].
  - split; [intros x p; reflexivity|]. split; [intros x y []|auto].
  - cbn. split; [|split].
    + intros x p. cbn. unfold upd. pose proof (M x p) as Mx. destruct (Nat.eqb_spec x (size g)) as [->|D], (Nat.eqb_spec p (size g)) as [->|D']; cbn; auto.
      * rewrite (O (size g)) in Mx by lia. cbn in Mx. auto.
      * rewrite (O (size g)) in Mx by lia. cbn in Mx. auto.
    + intros x y. cbn. unfold upd. destruct (Nat.eqb_spec x (size g)) as [->|D]; cbn; [intros []|]. intro I. specialize (R x y I). lia.
    + intros x L. cbn in *. rewrite upd_neq by lia. apply O. lia.
  - split; [apply subscribe_mirrored; auto|]. unfold SubscribeToPrerequisite, at_tracker. cbn. split.
    + intros a b. cbn. unfold upd. destruct (Nat.eqb_spec a p), (Nat.eqb_spec p x), (Nat.eqb_spec a x); subst; try congruence; cbn; rewrite ?in_app_iff; cbn; intro I; try (destruct I as [I|[I|[]]]; [|subst; auto]); eapply R; eauto.
    + intros a L. unfold upd. destruct (Nat.eqb_spec a p), (Nat.eqb_spec a x); subst; try lia. apply O. lia.
  - pose proof (unsubscribe_spec x p g M) as U. destruct (in_dec _ _ _) as [I|I]; [|congruence]. destruct U as (g'' & E' & M' & Sz & Ca & P). rewrite E' in E. injection E as ->.
    assert (Lx : x < size g). { destruct (le_lt_dec (size g) x) as [D|D]; auto. rewrite (O x D) in I. destruct I. }
    assert (Lp : p < size g). { destruct (le_lt_dec (size g) p) as [D|D]; auto. apply count_in in I. rewrite (M x p), (O p D) in I. cbn in I. lia. }
    split; auto. split.
    + intros a b J. rewrite Sz. apply count_in in J. rewrite <- (M' b a) in J. apply (R a). apply count_in. rewrite <- (M b a), P. lia.
    + intros a L. rewrite Sz in L. unfold UnsubscribeFromPrerequisite in E'. destruct (Remove p _); [|discriminate]. destruct (Remove x _); [|discriminate]. injection E' as <-. unfold at_tracker. cbn. rewrite !upd_neq by lia. apply O. auto.
Qed.
