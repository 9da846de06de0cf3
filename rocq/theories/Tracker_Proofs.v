(** Proofs for C51: change notification. *)
From Coq Require Import List Bool Arith ZArith Lia.
From Verif Require Import Base Maps Tracker_Model Tracker_Spec.
Import ListNotations.

Lemma downstream_trans g x y z : downstream g x y -> downstream g y z -> downstream g x z.
Proof. induction 1; intro D; [eapply down_more; eauto|eapply down_more; eauto]. Qed.
Lemma downstream_same g g' x y : same_graph g g' -> downstream g x y -> downstream g' x y.
Proof. intros [_ E] D. induction D; [apply down_one|eapply down_more; [|eauto]]; destruct (E x) as (_ & -> & _); auto. Qed.
Lemma same_graph_refl g : same_graph g g.
Proof. repeat split. Qed.
Lemma same_graph_sym g g' : same_graph g g' -> same_graph g' g.
Proof. intros [A B]. split; auto. intro x. destruct (B x) as (-> & -> & ->). auto. Qed.
Lemma same_graph_trans g g' g'' : same_graph g g' -> same_graph g' g'' -> same_graph g g''.
Proof. intros [A B] [C D]. split; [congruence|]. intro x. destruct (B x) as (B1 & B2 & B3), (D x) as (-> & -> & ->). auto. Qed.
Lemma in_range_same g g' : same_graph g g' -> in_range g -> in_range g'.
Proof. intros [E F] R x y I. rewrite E. apply (R x). destruct (F x) as (_ & <- & _). auto. Qed.

Section Sweep.
Context {V : Type}.
Variable ev : Z.
Implicit Types s : context V.
Definition marked s (x : nat) : Prop := last_event (tracker_of s x) = ev.
Definition unmarked s : nat := length (filter (fun x => negb (Z.eqb (last_event (tracker_of s x)) ev)) (seq 0 (size (deps s)))).

(** What may change in a sweep over the trackers that start it in [from]. *)
Record static s s' : Prop := {
  st_graph : same_graph (deps s) (deps s');
  st_frozen : frozen s' = frozen s;
  st_sources : sources s' = sources s;
  st_event : current_event s' = current_event s;
  st_entry : forall e, value (cache s' e) = value (cache s e) /\ serial (cache s' e) = serial (cache s e) /\ disabled (cache s' e) = disabled (cache s e) }.
Record sweep s s' : Prop := {
  sw_static : static s s';
  sw_old : forall y, marked s y -> marked s' y;
  sw_last : forall y, ~ marked s' y -> last_event (tracker_of s' y) = last_event (tracker_of s y);
  sw_closed : forall y z, marked s' y -> ~ marked s y -> In z (subs (tracker_of s y)) -> marked s' z;
  sw_stale : forall e, out_of_date (cache s' e) = true <-> out_of_date (cache s e) = true \/ exists y, marked s' y /\ ~ marked s y /\ cached (tracker_of s y) = Some e;
  sw_sent : forall y, n_sent (tracker_of s' y) = n_sent (tracker_of s y) + (if Z.eqb (last_event (tracker_of s y)) ev then 0 else if Z.eqb (last_event (tracker_of s' y)) ev then length (subs (tracker_of s y)) else 0) }.

Lemma static_refl s : static s s.
Proof. split; auto. apply same_graph_refl. Qed.
Lemma static_trans s s' s'' : static s s' -> static s' s'' -> static s s''.
Proof.
  intros [A1 A2 A3 A4 A5] [B1 B2 B3 B4 B5]. split; try congruence; [eapply same_graph_trans; eauto|].
  intro e. destruct (A5 e) as (X1 & X2 & X3), (B5 e) as (-> & -> & ->). auto.
Qed.
Lemma static_subs s s' x : static s s' -> subs (tracker_of s' x) = subs (tracker_of s x).
Proof. intros [[_ E] _ _ _ _]. apply E. Qed.
Lemma static_cached s s' x : static s s' -> cached (tracker_of s' x) = cached (tracker_of s x).
Proof. intros [[_ E] _ _ _ _]. apply E. Qed.
Lemma marked_dec s x : {marked s x} + {~ marked s x}.
Proof. apply Z.eq_dec. Qed.
Lemma sweep_refl s : sweep s s.
Proof.
  split; auto using static_refl; try tauto.
  - intros e. split; [auto|]. intros [H|(y & A & B & _)]; tauto.
  - intro y. destruct (Z.eqb _ _); lia.
Qed.
Lemma sweep_trans s s' s'' : sweep s s' -> sweep s' s'' -> sweep s s''.
Proof.
  intros A B. pose proof (sw_static _ _ A) as SA. pose proof (sw_static _ _ B) as SB. split.
  - eapply static_trans; eauto.
  - intros y M. apply (sw_old _ _ B). apply (sw_old _ _ A). auto.
  - intros y M. rewrite (sw_last _ _ B y M). apply (sw_last _ _ A). intro N. apply M. apply (sw_old _ _ B). auto.
  - intros y z M N I. destruct (marked_dec s' y) as [D|D].
    + apply (sw_old _ _ B). eapply (sw_closed _ _ A); eauto.
    + eapply (sw_closed _ _ B y); eauto. rewrite (static_subs _ _ _ SA). auto.
  - intro e. rewrite (sw_stale _ _ B), (sw_stale _ _ A). split.
    + intros [[H|(y & M & N & C)]|(y & M & N & C)]; [auto| |].
      * right. exists y. split; [apply (sw_old _ _ B); auto|auto].
      * right. exists y. rewrite (static_cached _ _ _ SA) in C. repeat split; auto. intro X. apply N. apply (sw_old _ _ A). auto.
    + intros [H|(y & M & N & C)]; [auto|]. destruct (marked_dec s' y) as [D|D]; [left; right; exists y; auto|right; exists y; rewrite (static_cached _ _ _ SA); auto].
  - intro y. rewrite (sw_sent _ _ B y), (sw_sent _ _ A y), (static_subs _ _ _ SA).
    destruct (Z.eqb_spec (last_event (tracker_of s y)) ev) as [E1|E1], (Z.eqb_spec (last_event (tracker_of s' y)) ev) as [E2|E2], (Z.eqb_spec (last_event (tracker_of s'' y)) ev) as [E3|E3]; try lia; exfalso; try (apply E2; apply (sw_old _ _ A); exact E1); apply E3; apply (sw_old _ _ B); exact E2.
Qed.

Lemma filter_le {A} (f g : A -> bool) l : (forall x, In x l -> f x = true -> g x = true) -> length (filter f l) <= length (filter g l).
Proof.
  induction l as [|a l IH]; intro H; cbn; auto. assert (length (filter f l) <= length (filter g l)) by (apply IH; intros; apply H; cbn; auto).
  destruct (f a) eqn:E; [rewrite (H a (or_introl eq_refl) E); cbn; lia|destruct (g a); cbn; lia].
Qed.
Lemma filter_lt {A} (f g : A -> bool) l x : (forall x, In x l -> f x = true -> g x = true) -> In x l -> f x = false -> g x = true -> length (filter f l) < length (filter g l).
Proof.
  induction l as [|a l IH]; intros H I F G; [destruct I|]. cbn [filter]. assert (L : length (filter f l) <= length (filter g l)) by (apply filter_le; intros; apply H; cbn; auto).
  destruct I as [->|I]; [rewrite F, G; cbn; lia|]. assert (length (filter f l) < length (filter g l)) by (apply IH; auto; intros; apply H; cbn; auto).
  destruct (f a) eqn:E; [rewrite (H a (or_introl eq_refl) E); cbn; lia|destruct (g a); cbn; lia].
Qed.
Lemma unmarked_sweep s s' : sweep s s' -> unmarked s' <= unmarked s.
Proof.
  intro S0. unfold unmarked. destruct (st_graph _ _ (sw_static _ _ S0)) as [-> _]. apply filter_le. intros x _ E.
  destruct (Z.eqb_spec (last_event (tracker_of s' x)) ev) as [D|D]; [discriminate|]. destruct (Z.eqb_spec (last_event (tracker_of s x)) ev) as [D'|D']; auto. exfalso. apply D. apply (sw_old _ _ S0). auto.
Qed.

(** Updates of one tracker. *)
Lemma tracker_on s x f y : tracker_of (on_tracker x f s) y = if Nat.eqb y x then f (tracker_of s x) else tracker_of s y.
Proof. unfold on_tracker, tracker_of, with_deps, at_tracker. cbn. unfold upd. destruct (Nat.eqb_spec y x); subst; auto. Qed.
Lemma static_on s x f : (forall t, prereqs (f t) = prereqs t /\ subs (f t) = subs t /\ cached (f t) = cached t) -> static s (on_tracker x f s).
Proof.
  intro H. split; auto. split; auto. intro y. change (trackers (deps (on_tracker x f s)) y) with (tracker_of (on_tracker x f s) y). rewrite tracker_on. unfold tracker_of. destruct (Nat.eqb_spec y x) as [->|]; auto.
Qed.
(** Updates of the counters. *)
Lemma sweep_count s x f : (forall t, prereqs (f t) = prereqs t /\ subs (f t) = subs t /\ cached (f t) = cached t) -> (forall t, last_event (f t) = last_event t /\ n_sent (f t) = n_sent t) -> sweep s (on_tracker x f s).
Proof.
  intros H K. assert (E : forall y, last_event (tracker_of (on_tracker x f s) y) = last_event (tracker_of s y) /\ n_sent (tracker_of (on_tracker x f s) y) = n_sent (tracker_of s y)).
  { intro y. rewrite tracker_on. destruct (Nat.eqb_spec y x) as [->|]; auto. }
  assert (M : forall y, marked (on_tracker x f s) y <-> marked s y) by (intro y; unfold marked; destruct (E y) as [-> _]; tauto).
  split.
  - apply static_on; auto.
  - intros y. apply M.
  - intros y _. apply E.
  - intros y z A B. rewrite M in A. tauto.
  - intro e. split; [auto|]. intros [A|(y & A & B & _)]; auto. rewrite M in A. tauto.
  - intro y. destruct (E y) as [-> ->]. destruct (Z.eqb _ _); lia.
Qed.
Lemma cache_invalidate x s : forall e, value (cache (invalidate x s) e) = value (cache s e) /\ serial (cache (invalidate x s) e) = serial (cache s e) /\ disabled (cache (invalidate x s) e) = disabled (cache s e) /\
  (out_of_date (cache (invalidate x s) e) = true <-> out_of_date (cache s e) = true \/ cached (tracker_of s x) = Some e).
Proof.
  intro e. unfold invalidate. destruct (cached (tracker_of s x)) as [c|]; [|repeat split; auto; intros [?|?]; auto; discriminate].
  unfold at_entry, with_cache. cbn. unfold upd. destruct (Nat.eqb_spec e c) as [->|D]; cbn; [repeat split; auto|repeat split; auto]. intros [A|A]; auto. congruence.
Qed.
Lemma deps_invalidate x s : deps (invalidate x s) = deps s /\ frozen (invalidate x s) = frozen s /\ sources (invalidate x s) = sources s /\ current_event (invalidate x s) = current_event s.
Proof. unfold invalidate. destruct (cached _); auto. Qed.
Lemma static_invalidate x s : static s (invalidate x s).
Proof.
  destruct (deps_invalidate x s) as (A & B & C & D). split; auto; [rewrite A; apply same_graph_refl|]. intro e. destruct (cache_invalidate x s e) as (-> & -> & -> & _). auto.
Qed.
Lemma tracker_invalidate x s y : tracker_of (invalidate x s) y = tracker_of s y.
Proof. unfold tracker_of. destruct (deps_invalidate x s) as (-> & _). auto. Qed.

Definition note_ok (f : context V -> nat -> outcome (context V)) (fuel : nat) : Prop := forall s x, in_range (deps s) -> x < size (deps s) -> unmarked s < fuel ->
  exists s', f s x = Ok s' /\ sweep s s' /\ marked s' x /\ forall y, marked s' y -> ~ marked s y -> y = x \/ downstream (deps s) x y.
Lemma each_ok f fuel : note_ok f fuel -> forall l s, in_range (deps s) -> (forall x, In x l -> x < size (deps s)) -> unmarked s < fuel ->
  exists s', each f l s = Ok s' /\ sweep s s' /\ (forall x, In x l -> marked s' x) /\ forall y, marked s' y -> ~ marked s y -> exists x, In x l /\ (y = x \/ downstream (deps s) x y).
Proof.
  intros N. induction l as [|x l IH]; intros s R L U; cbn [each].
  - exists s. split; auto. split; [apply sweep_refl|]. split; [intros x []|]. tauto.
  - destruct (N s x R) as (s1 & -> & S1 & M1 & D1); [apply L; cbn; auto|auto|]. cbn [obind].
    pose proof (st_graph _ _ (sw_static _ _ S1)) as G1.
    destruct (IH s1) as (s2 & E2 & S2 & M2 & D2).
    + eapply in_range_same; eauto.
    + intros y I. destruct G1 as [-> _]. apply L. cbn; auto.
    + pose proof (unmarked_sweep _ _ S1). lia.
    + exists s2. split; auto. split; [eapply sweep_trans; eauto|]. split.
      * intros y [<-|I]; [apply (sw_old _ _ S2); auto|auto].
      * intros y A B. destruct (marked_dec s1 y) as [C|C].
        -- exists x. split; [cbn; auto|]. auto.
        -- destruct (D2 y A C) as (z & I & Z). exists z. split; [cbn; auto|]. destruct Z as [Z|Z]; auto. right. eapply downstream_same; [apply same_graph_sym; eauto|auto].
Qed.
(** One tracker heard of the event, then its subscribers are notified. *)
Lemma visit_ok f fuel s x (inv : bool) : note_ok f fuel -> in_range (deps s) -> x < size (deps s) -> ~ marked s x -> unmarked s <= fuel ->
  let s2 := (if inv then invalidate x else fun s => s) (on_tracker x (set_event ev) s) in
  exists s', obind (each f (subs (tracker_of s2 x)) s2) (fun s3 => Ok (on_tracker x (note_sent (length (subs (tracker_of s2 x)))) s3)) = Ok s' /\
  static s s' /\ (forall y, marked s y -> marked s' y) /\ (forall y, ~ marked s' y -> last_event (tracker_of s' y) = last_event (tracker_of s y)) /\
  (forall y z, marked s' y -> ~ marked s y -> In z (subs (tracker_of s y)) -> marked s' z) /\
  (forall e, out_of_date (cache s' e) = true <-> out_of_date (cache s e) = true \/ exists y, marked s' y /\ ~ marked s y /\ (y = x -> inv = true) /\ cached (tracker_of s y) = Some e) /\
  (forall y, n_sent (tracker_of s' y) = n_sent (tracker_of s y) + (if Z.eqb (last_event (tracker_of s y)) ev then 0 else if Z.eqb (last_event (tracker_of s' y)) ev then length (subs (tracker_of s y)) else 0)) /\
  marked s' x /\ (forall y, marked s' y -> ~ marked s y -> y = x \/ downstream (deps s) x y).
Proof.
  intros N R L U Fu s2.
  assert (T2 : forall y, tracker_of s2 y = if Nat.eqb y x then set_event ev (tracker_of s x) else tracker_of s y) by (intro y; subst s2; destruct inv; [rewrite tracker_invalidate|]; apply tracker_on).
  assert (S2 : static s s2). { eapply static_trans; [apply (static_on s x (set_event ev)); auto|]. subst s2. destruct inv; [apply static_invalidate|apply static_refl]. }
  assert (M2 : forall y, marked s2 y <-> y = x \/ marked s y). { intro y. unfold marked. rewrite T2. destruct (Nat.eqb_spec y x) as [->|D]; cbn; tauto. }
  assert (Stale2 : forall e, out_of_date (cache s2 e) = true <-> out_of_date (cache s e) = true \/ inv = true /\ cached (tracker_of s x) = Some e).
  { intro e. subst s2. destruct inv; [|cbn; intuition congruence]. destruct (cache_invalidate x (on_tracker x (set_event ev) s) e) as (_ & _ & _ & ->). rewrite tracker_on, Nat.eqb_refl. cbn. intuition. }
  assert (U2 : unmarked s2 < unmarked s).
  { unfold unmarked. destruct (st_graph _ _ S2) as [-> _]. apply filter_lt with x.
    - intros y _. rewrite T2. destruct (Nat.eqb_spec y x) as [Eyx|]; [rewrite ?Eyx in *|]; auto. cbn [set_event last_event]. rewrite Z.eqb_refl. discriminate.
    - apply in_seq. lia.
    - rewrite T2, Nat.eqb_refl. cbn. rewrite Z.eqb_refl. auto.
    - unfold marked in U. destruct (Z.eqb_spec (last_event (tracker_of s x)) ev); auto. }
  pose proof (static_subs _ _ x S2) as Ex. rewrite Ex. pose proof (st_graph _ _ S2) as G2.
  destruct (each_ok f fuel N (subs (tracker_of s x)) s2) as (s3 & E3 & S3 & M3 & D3).
  - eapply in_range_same; eauto.
  - intros y I. destruct G2 as [-> _]. apply (R x). auto.
  - lia.
  - rewrite E3. cbn [obind]. set (s' := on_tracker x (note_sent (length (subs (tracker_of s x)))) s3).
    assert (S' : static s3 s') by (apply static_on; auto). pose proof (sw_static _ _ S3) as S3s.
    assert (M' : forall y, last_event (tracker_of s' y) = last_event (tracker_of s3 y)) by (intro y; unfold s'; rewrite tracker_on; destruct (Nat.eqb_spec y x) as [Eyx|]; [rewrite ?Eyx in *|]; auto).
    assert (Mm : forall y, marked s' y <-> marked s3 y) by (intro y; unfold marked; rewrite M'; tauto).
    assert (X3 : marked s3 x) by (apply (sw_old _ _ S3); apply M2; auto).
    exists s'. split; auto. split; [eapply static_trans; [exact S2|]; eapply static_trans; eauto|]. split; [|split; [|split; [|split; [|split; [|split]]]]].
    + intros y A. apply Mm. apply (sw_old _ _ S3). apply M2. auto.
    + intros y A. rewrite M'. rewrite Mm in A. rewrite (sw_last _ _ S3 y A), T2. destruct (Nat.eqb_spec y x) as [Eyx|]; [rewrite ?Eyx in *|]; auto. tauto.
    + intros y z A B I. apply Mm. apply Mm in A. destruct (Nat.eq_dec y x) as [->|D]; [apply M3; auto|]. eapply (sw_closed _ _ S3 y); eauto; [intro C; apply M2 in C; tauto|]. rewrite (static_subs _ _ y S2). auto.
    + intro e. change (out_of_date (cache s' e)) with (out_of_date (cache s3 e)). rewrite (sw_stale _ _ S3 e), Stale2. split.
      * intros [[A|[A B]]|(y & A & B & C)]; [auto| |].
        -- right. exists x. repeat split; auto. apply Mm. auto.
        -- right. exists y. assert (y <> x) by (intros ->; apply B; apply M2; auto). rewrite (static_cached _ _ y S2) in C. split; [apply Mm; auto|]. split; [intro D; apply B; apply M2; auto|]. split; [tauto|auto].
      * intros [A|(y & A & B & C & D)]; auto. destruct (Nat.eq_dec y x) as [->|E]; [left; right; auto|]. right. exists y. split; [apply Mm; auto|]. split; [intro F; apply M2 in F; tauto|rewrite (static_cached _ _ y S2); auto].
    + intro y. rewrite M'. pose proof (sw_sent _ _ S3 y) as Sy. rewrite (static_subs _ _ y S2) in Sy. rewrite T2 in Sy. unfold s'. rewrite tracker_on. destruct (Nat.eqb_spec y x) as [Ey|D].
      * rewrite Ey in Sy. rewrite Ey. clear Ey y. cbn [note_sent n_sent]. cbn [set_event last_event n_sent] in Sy. rewrite Z.eqb_refl in Sy. unfold marked in U, X3. destruct (Z.eqb_spec (last_event (tracker_of s x)) ev); [tauto|]. destruct (Z.eqb_spec (last_event (tracker_of s3 x)) ev); [|tauto]. lia.
      * exact Sy.
    + apply Mm. auto.
    + intros y A B. apply Mm in A. destruct (Nat.eq_dec y x) as [->|D]; auto. right. destruct (D3 y A) as (z & I & Z); [intro C; apply M2 in C; tauto|].
      assert (I' : In z (subs (trackers (deps s) x))) by exact I. destruct Z as [->|Z]; [apply down_one; auto|eapply down_more; eauto]. eapply downstream_same; [apply same_graph_sym; eauto|auto].
Qed.
Lemma note_prerequisite_ok fuel : note_ok (NotePrerequisiteChange fuel ev) fuel.
Proof.
  induction fuel as [|fuel IH]; intros s x R L U; [lia|]. cbn [NotePrerequisiteChange].
  assert (C : sweep s (on_tracker x note_prereq s)) by (apply sweep_count; auto). set (s1 := on_tracker x note_prereq s) in *.
  pose proof (st_graph _ _ (sw_static _ _ C)) as G. pose proof (unmarked_sweep _ _ C) as Us.
  assert (M1 : forall y, marked s1 y <-> marked s y). { intro y. unfold marked, s1. rewrite tracker_on. destruct (Nat.eqb_spec y x) as [Eyx|]; [rewrite ?Eyx in *|]; cbn; tauto. }
  destruct (Z.eqb_spec (last_event (tracker_of s1 x)) ev) as [E|E].
  - exists (on_tracker x note_ignored s1). split; auto. assert (D : sweep s1 (on_tracker x note_ignored s1)) by (apply sweep_count; auto). split; [eapply sweep_trans; eauto|]. split; [apply (sw_old _ _ D); auto|].
    intros y A B. exfalso. apply B, M1. unfold marked in A. rewrite tracker_on in A. destruct (Nat.eqb_spec y x) as [Eyx|]; [rewrite ?Eyx in *|]; auto.
  - destruct (visit_ok (NotePrerequisiteChange fuel ev) fuel s1 x true) as (s' & Es & A1 & A2 & A3 & A4 & A5 & A6 & A7 & A8); auto.
    + eapply in_range_same; eauto.
    + lia.
    + cbn beta iota zeta in Es. exists s'. split; [exact Es|]. split; [|split; auto].
      * eapply sweep_trans; [exact C|]. split; auto. intro e. rewrite A5. split; (intros [H|(y & H)]; [auto|right; exists y; tauto]).
      * intros y M N. assert (N1 : ~ marked s1 y) by (rewrite M1; auto). destruct (A8 y M N1) as [->|D]; auto. right. eapply downstream_same; [apply same_graph_sym; eauto|auto].
Qed.
Definition closed s : Prop := forall y z, marked s y -> In z (subs (tracker_of s y)) -> marked s z.
Lemma closed_downstream s x y : closed s -> marked s x -> downstream (deps s) x y -> marked s y.
Proof. intros C M D. induction D; [eapply C; eauto|apply IHD; eapply C; eauto]. Qed.
Lemma unmarked_size s : unmarked s <= size (deps s).
Proof. unfold unmarked. rewrite <- (seq_length (size (deps s)) 0) at 2. clear. induction (seq 0 (size (deps s))); cbn; auto. destruct (negb _); cbn; lia. Qed.
Lemma note_value_ok s x : in_range (deps s) -> x < size (deps s) -> closed s ->
  exists s', NoteValueChange ev s x = Ok s' /\ static s s' /\ closed s' /\ (forall y, marked s' y <-> marked s y \/ y = x \/ downstream (deps s) x y) /\
  (forall y, ~ marked s' y -> last_event (tracker_of s' y) = last_event (tracker_of s y)) /\
  (forall e, out_of_date (cache s' e) = true <-> out_of_date (cache s e) = true \/ exists y, ~ marked s y /\ y <> x /\ ~ marked s x /\ downstream (deps s) x y /\ cached (tracker_of s y) = Some e) /\
  (forall y, n_sent (tracker_of s' y) = n_sent (tracker_of s y) + (if Z.eqb (last_event (tracker_of s y)) ev then 0 else if Z.eqb (last_event (tracker_of s' y)) ev then length (subs (tracker_of s y)) else 0)).
Proof.
  intros R L Cl. unfold NoteValueChange. assert (C : sweep s (on_tracker x note_value s)) by (apply sweep_count; auto). set (s1 := on_tracker x note_value s) in *.
  pose proof (sw_static _ _ C) as St. pose proof (st_graph _ _ St) as G.
  assert (M1 : forall y, last_event (tracker_of s1 y) = last_event (tracker_of s y) /\ n_sent (tracker_of s1 y) = n_sent (tracker_of s y)) by (intro y; unfold s1; rewrite tracker_on; destruct (Nat.eqb_spec y x) as [Eyx|]; [rewrite ?Eyx in *|]; cbn; auto).
  assert (Mm : forall y, marked s1 y <-> marked s y) by (intro y; unfold marked; destruct (M1 y) as [-> _]; tauto).
  destruct (Z.eqb_spec (last_event (tracker_of s1 x)) ev) as [E|E].
  - assert (D : sweep s1 (on_tracker x note_ignored s1)) by (apply sweep_count; auto). pose proof (sweep_trans _ _ _ C D) as F. set (s' := on_tracker x note_ignored s1) in *.
    assert (M' : forall y, marked s' y <-> marked s y). { intro y. unfold marked, s'. rewrite tracker_on. destruct (Nat.eqb_spec y x) as [Eyx|]; [rewrite ?Eyx in *|]; cbn; apply Mm. }
    assert (Mx : marked s x) by (apply Mm; auto).
    exists s'. split; auto. split; [apply (sw_static _ _ F)|]. split; [|split; [|split; [|split]]].
    + intros y z A B. apply M' in A. apply M'. eapply Cl; eauto. rewrite (static_subs _ _ y (sw_static _ _ F)) in B. auto.
    + intro y. rewrite M'. split; auto. intros [A|[->|A]]; auto. eapply closed_downstream; eauto.
    + apply (sw_last _ _ F).
    + intro e. rewrite (sw_stale _ _ F). split; [intros [A|(y & A & B & _)]; [auto|apply M' in A; tauto]|intros [A|(y & _ & _ & B & _)]; [auto|tauto]].
    + apply (sw_sent _ _ F).
  - assert (Nx : ~ marked s x) by (intro A; apply E, Mm; auto).
    destruct (visit_ok (NotePrerequisiteChange (S (size (deps s))) ev) (S (size (deps s))) s1 x false) as (s' & Es & A1 & A2 & A3 & A4 & A5 & A6 & A7 & A8); auto.
    + apply note_prerequisite_ok.
    + eapply in_range_same; eauto.
    + pose proof (unmarked_size s1). destruct G as [G _]. rewrite G in *. lia.
    + cbn beta iota zeta in Es. pose proof (static_trans _ _ _ St A1) as S'. exists s'. split; [exact Es|]. split; auto.
      assert (Cl' : closed s').
      { intros y z A B. rewrite (static_subs _ _ y S') in B. destruct (marked_dec s y) as [D|D].
        - apply A2, Mm. eapply Cl; eauto.
        - apply (A4 y); auto; [rewrite Mm; auto|]. rewrite (static_subs _ _ y St). auto. }
      assert (M' : forall y, marked s' y <-> marked s y \/ y = x \/ downstream (deps s) x y).
      { intro y. split.
        - intro A. destruct (marked_dec s y) as [D|D]; auto. right. assert (N1 : ~ marked s1 y) by (rewrite Mm; auto). destruct (A8 y A N1) as [F|F]; auto. right. eapply downstream_same; [apply same_graph_sym; eauto|auto].
        - intros [A|[->|A]]; [apply A2, Mm; auto|auto|]. eapply closed_downstream; eauto. eapply downstream_same; [|exact A]. apply (st_graph _ _ S'). }
      split; auto. split; auto. split; [|split].
      * intros y A. rewrite (A3 y A). apply M1.
      * intro e. rewrite A5. change (out_of_date (cache s1 e)) with (out_of_date (cache s e)). split.
        -- intros [A|(y & A & B & D & F)]; auto. right. exists y. rewrite Mm in B. rewrite (static_cached _ _ y St) in F. assert (y <> x) by (intro; apply D in H; discriminate). apply M' in A. repeat split; auto. tauto.
        -- intros [A|(y & A & B & D & F & K)]; auto. right. exists y. rewrite Mm, (static_cached _ _ y St). split; [apply M'; auto|]. split; [auto|]. split; [tauto|auto].
      * intro y. rewrite A6. destruct (M1 y) as [-> ->]. rewrite (static_subs _ _ y St). auto.
Qed.
End Sweep.
