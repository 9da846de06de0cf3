(** Lemmas for C44 and C45: progress and termination. *)
From Coq Require Import List Arith Bool Lia Permutation.
From Verif Require Import ThreadPool_Model ThreadPool_Spec ThreadPool_Inv.
Import ListNotations.

(** ** Progress *)
Lemma stuck_shape n s : inv n s -> stuck s ->
  start_mutex s = None /\ tasks_mutex s = None /\ (forall j w, nth_error (workers s) j = Some w -> w = WSleepS \/ w = WSleepT \/ w = WExit) /\
  ((at_call s = OIdle /\ program s = []) \/ at_call s = OFWait).
Proof.
  intros V K.
  assert (Kw : forall i s', ~ worker_step i s s') by (intros i s' X; apply (K s'); eapply by_worker; eauto).
  assert (Ko : forall s', ~ owner_step s s') by (intros s' X; apply (K s'); apply by_owner; auto).
  assert (S0 : start_mutex s = None).
  { destruct (start_mutex s) as [[|j]|] eqn:E; auto; exfalso.
    - apply (proj2 (v_so n s V)) in E. destruct (at_call s) eqn:A; try discriminate E; eapply Ko; [eapply o_start_set|eapply o_start_notify]; auto.
    - pose proof (v_sw n s V j E) as Lj. rewrite <- (v_n n s V) in Lj. destruct (nth_error (workers s) j) as [w|] eqn:Ej; [|apply nth_error_None in Ej; lia].
      pose proof (v_w n s V j w Ej) as Kj. oks Kj. apply O1 in E. destruct w; try discriminate E.
      + destruct (running s) eqn:R; eapply Kw; [eapply w_started|eapply w_not_started]; eauto.
      + eapply Kw. eapply w_sleep_start; eauto. }
  assert (T0 : tasks_mutex s = None).
  { destruct (tasks_mutex s) as [[|j]|] eqn:E; auto; exfalso.
    - apply (proj2 (v_to n s V)) in E. destruct (at_call s) eqn:A; try discriminate E; eapply Ko; [eapply o_queue_push|eapply o_finish_notify|eapply o_cancel_clear]; eauto.
    - pose proof (v_tw n s V j E) as Lj. rewrite <- (v_n n s V) in Lj. destruct (nth_error (workers s) j) as [w|] eqn:Ej; [|apply nth_error_None in Ej; lia].
      pose proof (v_w n s V j w Ej) as Kj. oks Kj. apply O2 in E. destruct w; try discriminate E.
      + destruct (tasks s) as [|t rest] eqn:T; [destruct (finished s) eqn:F|]; eapply Kw; [eapply w_exit|eapply w_nothing|eapply w_take]; eauto.
      + eapply Kw. eapply w_sleep_tasks; eauto.
      + eapply Kw. eapply w_again; eauto. }
  split; auto. split; auto. split.
  - intros j w Nj. pose proof (v_w n s V j w Nj) as Kj. oks Kj. destruct w; auto; exfalso.
    + eapply Kw. eapply w_lock_start; eauto.
    + pose proof (proj1 O1 eq_refl). congruence.
    + pose proof (proj1 O1 eq_refl). congruence.
    + eapply Kw. eapply w_lock_tasks; eauto.
    + pose proof (proj1 O2 eq_refl). congruence.
    + pose proof (proj1 O2 eq_refl). congruence.
    + eapply Kw. eapply w_relock; eauto.
    + pose proof (proj1 O2 eq_refl). congruence.
    + eapply Kw. eapply w_run; eauto.
  - destruct (at_call s) eqn:A; auto; [|exfalso..].
    + left. split; auto. destruct (program s) as [|[t| | |] p] eqn:P; auto; exfalso.
      * destruct (finished s) eqn:F; eapply Ko; [eapply o_queue_throws|eapply o_queue]; eauto.
      * destruct (running s || finished s) eqn:F; eapply Ko; [eapply o_start_throws|eapply o_start]; eauto.
      * eapply Ko. eapply o_finish; eauto.
      * eapply Ko. eapply o_cancel; eauto.
    + eapply Ko. eapply o_queue_lock; eauto.
    + eapply Ko. eapply o_queue_push; eauto.
    + destruct (in_dec (fun a b : wpc => ltac:(decide equality; apply Nat.eq_dec)) WSleepT (workers s)) as [I|I].
      * apply in_nth in I. destruct I as [j I]. eapply Ko. eapply o_queue_notify; eauto.
      * eapply Ko. eapply o_queue_notify_none; eauto.
    + eapply Ko. eapply o_start_lock; eauto.
    + eapply Ko. eapply o_start_set; eauto.
    + eapply Ko. eapply o_start_notify; eauto.
    + eapply Ko. eapply o_finish_lock; eauto.
    + eapply Ko. eapply o_finish_notify; eauto.
    + eapply Ko. eapply o_cancel_lock; eauto.
    + eapply Ko. eapply o_cancel_clear; eauto.
Qed.

Lemma stuck_running n s : inv n s -> stuck s -> running s = true ->
  tasks s = [] /\ flat_map running_of (workers s) = [] /\ at_call s = OIdle /\ program s = [] /\ forall w, In w (workers s) -> w = WSleepT \/ w = WExit.
Proof.
  intros V K R. destruct (stuck_shape n s V K) as (_ & _ & W & O).
  assert (W' : forall w, In w (workers s) -> w = WSleepT \/ w = WExit).
  { intros w I. apply in_nth in I. destruct I as [j I]. destruct (W j w I) as [->|X]; auto. exfalso.
    pose proof (v_w n s V j _ I) as Kj. oks Kj. specialize (O6 eq_refl R). destruct O as [[O _]|O]; congruence. }
  assert (T : tasks s = []).
  { destruct (tasks s) as [|t l] eqn:T; auto. exfalso. destruct (v_wake n s V) as [X|(j & w & Nj & D)]; [congruence|destruct O as [[O _]|O]; congruence|].
    destruct (W' w) as [->| ->]; [eapply nth_error_In; eauto|congruence|]. pose proof (v_w n s V j _ Nj) as Kj. oks Kj. destruct (O4 eq_refl). congruence. }
  split; auto. split; [|].
  { clear -W'. induction (workers s) as [|w l IH]; auto. cbn. rewrite IH by (intros; apply W'; right; auto). destruct (W' w (or_introl eq_refl)) as [->| ->]; auto. }
  destruct O as [[O P]|O]; auto. exfalso. apply (K (with_call (with_running (without_futures s) false) OIdle)). apply by_owner. apply o_finish_return; auto.
  intros _ w I. destruct (W' w I) as [->|X]; auto. exfalso. apply in_nth in I. destruct I as [j I]. pose proof (v_w n s V j _ I) as Kj. oks Kj.
  assert (finished s = true) by (apply (v_f n s V); rewrite O; auto). specialize (O7 eq_refl H). rewrite O in O7. discriminate.
Qed.

(** ** Termination: every proper step lowers a measure. *)
Definition rank (w : wpc) : nat :=
  match w with WStart => 5 | WCheck => 4 | WSleepyS => 1 | WSleepS => 0 | WLoop => 3 | WPick => 2 | WSleepyT => 1 | WSleepT => 0 | WWakeT => 5 | WBack => 4 | WRun _ => 4 | WExit => 0 end.
Definition o_rank (n : nat) (o : opc) : nat :=
  match o with
  | OIdle => 0 | OQLock _ => 11 | OQPush _ => 10 | OQNotify => 6
  | OSLock => 5 * n + 3 | OSSet => 5 * n + 2 | OSNotify => 5 * n + 1
  | OFLock => 5 * n + 3 | OFNotify => 5 * n + 2 | OFWait => 1
  | OCLock => 2 | OCClear => 1
  end.
Definition sum (l : list nat) : nat := fold_right plus 0 l.
Definition measure (n : nat) (s : state) : nat :=
  sum (map rank (workers s)) + 3 * length (tasks s) + o_rank n (at_call s) + (5 * n + 20) * length (program s).
Lemma sum_set (f : wpc -> nat) l i w w' : nth_error l i = Some w -> sum (map f (set_nth l i w')) + f w = sum (map f l) + f w'.
Proof.
  revert i. induction l as [|x l IH]; intros [|i]; cbn; try discriminate.
  - intro H. inversion H. lia.
  - intro H. specialize (IH i H). unfold sum in *. lia.
Qed.
Lemma sum_map_le (f g : wpc -> nat) (h : wpc -> wpc) c l : (forall w, f (h w) <= f w + c) -> sum (map f (map h l)) <= sum (map f l) + c * length l.
Proof. intro H. induction l as [|x l IH]; cbn; [lia|]. specialize (H x). rewrite Nat.mul_succ_r. unfold sum in *. lia. Qed.
Local Arguments sum : simpl never.
Local Arguments Nat.mul : simpl never.
Local Arguments Nat.add : simpl never.
Lemma proper_decreases n s s' : inv n s -> proper_step s s' -> measure n s' < measure n s.
Proof.
  intros V [i St|St]; unfold measure.
  - destruct St as [N L|N R|N R|N|N L|N T F|N T F|N|t rest N T|N L|N|t N]; cbn;
      match goal with |- context [set_nth _ _ ?w'] => pose proof (sum_set rank _ _ _ w' N) as X; cbn in X end; rewrite ?T; cbn [length]; lia.
  - pose proof (v_n n s V) as Ln.
    destruct St as [t p A P F|t p A P F|t A L|t A|i A N|A N|p A P F|p A P F|A L|A|A|p A P|A L|A|A E|p A P|A L|A]; cbn; rewrite ?A, ?P; cbn [o_rank length]; rewrite ?app_length; cbn [length]; try lia.
    + pose proof (sum_set rank _ _ _ WWakeT N) as X; cbn in X. lia.
    + pose proof (sum_map_le rank rank wake_start 5 (workers s) ltac:(intros []; cbn; lia)). lia.
    + pose proof (sum_map_le rank rank wake_tasks 5 (workers s) ltac:(intros []; cbn; lia)). lia.
Qed.

(** After Finish has been called on a started pool every step, spurious wake-ups included,
    lowers another measure. *)
Definition rank2 (w : wpc) : nat :=
  match w with WStart => 8 | WCheck => 7 | WSleepyS => 10 | WSleepS => 9 | WLoop => 3 | WPick => 2 | WSleepyT => 7 | WSleepT => 6 | WWakeT => 5 | WBack => 4 | WRun _ => 4 | WExit => 0 end.
Definition measure2 (n : nat) (s : state) : nat :=
  sum (map rank2 (workers s)) + 3 * length (tasks s) + o_rank n (at_call s) + (5 * n + 20) * length (program s).
Definition closing (s : state) : Prop := finished s = true /\ (running s = true \/ forall w, In w (workers s) -> w = WExit).
Lemma finished_stays s s' : step s s' -> finished s = true -> finished s' = true.
Proof. intros [[i []|[]]|i []]; cbn; auto. Qed.
Lemma closing_decreases n s s' : inv n s -> closing s -> step s s' -> measure2 n s' < measure2 n s.
Proof.
  intros V [F C] [[i St|St]|i St]; unfold measure2.
  - assert (R : forall w, nth_error (workers s) i = Some w -> w <> WExit -> running s = true).
    { intros w N D. destruct C as [C|C]; auto. exfalso. apply D, C. eapply nth_error_In; eauto. }
    destruct St as [N L|N Ru|N Ru|N|N L|N T Fi|N T Fi|N|t rest N T|N L|N|t N]; pose proof (R _ N ltac:(discriminate)) as Rt; try congruence; cbn;
      match goal with |- context [set_nth _ _ ?w'] => pose proof (sum_set rank2 _ _ _ w' N) as X; cbn in X end; rewrite ?T; cbn [length]; lia.
  - pose proof (v_n n s V) as Ln.
    destruct St as [t p A P Fi|t p A P Fi|t A L|t A|i A N|A N|p A P Fi|p A P Fi|A L|A|A|p A P|A L|A|A E|p A P|A L|A]; cbn; rewrite ?A, ?P; cbn [o_rank length]; rewrite ?app_length; cbn [length]; try lia.
    + pose proof (sum_set rank2 _ _ _ WWakeT N) as X; cbn in X. lia.
    + pose proof (sum_map_le rank2 rank2 wake_start 5 (workers s) ltac:(intros []; cbn; lia)). lia.
    + pose proof (sum_map_le rank2 rank2 wake_tasks 5 (workers s) ltac:(intros []; cbn; lia)). lia.
  - destruct St as [N|N]; cbn; match goal with |- context [set_nth _ _ ?w'] => pose proof (sum_set rank2 _ _ _ w' N) as X; cbn in X end; lia.
Qed.
Lemma exits_set ws i (w : wpc) : (forall v, In v ws -> v = WExit) -> nth_error ws i = Some w -> w = WExit.
Proof. intros H N. apply H. eapply nth_error_In; eauto. Qed.
Lemma closing_stays n s s' : inv n s -> closing s -> step s s' -> closing s'.
Proof.
  intros V [F C] St. split; [eapply finished_stays; eauto|]. destruct C as [R|X].
  - destruct St as [[i []|[]]|i []]; cbn; auto.
    right. intros w I. destruct (futures s) eqn:Fu; [auto|]. apply in_nth in I. destruct I as [j I]. pose proof (v_w n s V j _ I) as Kj. oks Kj. auto.
  - right. destruct St as [[i St|St]|i St].
    + exfalso. destruct St as [N L|N Ru|N Ru|N|N L|N T Fi|N T Fi|N|t rest N T|N L|N|t N]; pose proof (exits_set _ _ _ X N); discriminate.
    + assert (M : forall h, (forall w, In w (workers s) -> h w = w) -> map h (workers s) = workers s) by (intros; rewrite <- (map_id (workers s)) at 2; apply map_ext_in; auto).
      destruct St as [t p A P Fi|t p A P Fi|t A L|t A|i A N|A N|p A P Fi|p A P Fi|A L|A|A|p A P|A L|A|A E|p A P|A L|A]; cbn; auto.
      * exfalso. pose proof (exits_set _ _ _ X N). discriminate.
      * rewrite M; auto. intros w I. rewrite (X w I). auto.
      * rewrite M; auto. intros w I. rewrite (X w I). auto.
    + exfalso. destruct St as [N|N]; pose proof (exits_set _ _ _ X N); discriminate.
Qed.
Lemma closing_acc n s : inv n s -> closing s -> Acc (fun b a => step a b) s.
Proof.
  intros V C. remember (measure2 n s) as k eqn:Ek. revert s V C Ek. induction k as [k IH] using lt_wf_ind. intros s V C Ek. constructor. intros s' St.
  apply (IH (measure2 n s')); [rewrite Ek; eapply closing_decreases; eauto|eapply step_inv; eauto|eapply closing_stays; eauto|reflexivity].
Qed.
Lemma proper_acc n s : inv n s -> Acc (fun b a => proper_step a b) s.
Proof.
  intros V. remember (measure n s) as k eqn:Ek. revert s V Ek. induction k as [k IH] using lt_wf_ind. intros s V Ek. constructor. intros s' St.
  apply (IH (measure n s')); [rewrite Ek; eapply proper_decreases; eauto|eapply step_inv; [eauto|apply is_proper; auto]|reflexivity].
Qed.
