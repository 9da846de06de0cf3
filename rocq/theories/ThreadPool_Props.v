(** C44, C45: the thread pool. *)
From Coq Require Import List Arith Bool Lia Permutation.
From Verif Require Import ThreadPool_Model ThreadPool_Spec ThreadPool_Inv ThreadPool_Proofs.
Import ListNotations.

(** ** C44 *)
Lemma gone_split (g : list (nat * bool)) : Permutation (map fst g) (map fst (filter snd g) ++ map fst (filter (fun x => negb (snd x)) g)).
Proof. induction g as [|[t []] g IH]; cbn; auto. rewrite <- Permutation_middle. auto. Qed.

(** Tasks leave the queue, picked or cancelled, in the order in which they were queued. *)
Theorem pool_fifo n p s : reachable n p s ->
  exists left_, queued s = map fst (gone s) ++ left_ /\ left_ = tasks s /\ Permutation (map fst (gone s)) (picked s ++ cancelled s).
Proof. intro R. exists (tasks s). rewrite (v_fifo n s (reach_inv n p s R)). split; auto. split; auto. apply gone_split. Qed.
Print Assumptions pool_fifo.

Definition in_hand (o : opc) : list nat := match o with OQLock t | OQPush t => [t] | _ => [] end.
Lemma queue_budget n p s t : reachable n p s -> count_occ Nat.eq_dec (queued s ++ in_hand (at_call s) ++ queues (program s)) t <= count_occ Nat.eq_dec (queues p) t.
Proof.
  intros (s0 & I & E). unfold queues. induction E as [|s s' E IH St]; unfold queues in *.
  - unfold ThreadPool in I. destruct (Nat.eqb n 0); [discriminate|]. inversion I; subst. cbn. lia.
  - destruct St as [[i St|St]|i St].
    + destruct St; cbn; auto.
    + destruct St as [u p' A P F|u p' A P F|u A L|u A|i A N|A N|p' A P F|p' A P F|A L|A|A|p' A P|A L|A|A X|p' A P|A L|A]; cbn in *; rewrite ?A, ?P in IH; cbn in IH; rewrite ?A; cbn; auto;
        rewrite ?count_occ_app in *; cbn in *; destruct (Nat.eq_dec u t); lia.
    + destruct St; cbn; auto.
Qed.
Lemma count_split (a b : list nat) t : Permutation a b -> count_occ Nat.eq_dec a t = count_occ Nat.eq_dec b t.
Proof. intro H. apply (Permutation_count_occ Nat.eq_dec). auto. Qed.

(** In every schedule a task is executed at most as often as it was queued: once, when the
    queued tasks are different. *)
Theorem pool_at_most_once n p s : reachable n p s ->
  (forall t, count_occ Nat.eq_dec (done s) t <= count_occ Nat.eq_dec (queued s) t /\ count_occ Nat.eq_dec (queued s) t <= count_occ Nat.eq_dec (queues p) t) /\
  (NoDup (queues p) -> NoDup (done s) /\ forall t, In t (done s) -> In t (queues p) /\ ~ In t (cancelled s)).
Proof.
  intro R. pose proof (reach_inv n p s R) as V.
  assert (P : forall t, count_occ Nat.eq_dec (done s) t + count_occ Nat.eq_dec (cancelled s) t <= count_occ Nat.eq_dec (queued s) t).
  { intro t. rewrite <- (v_fifo n s V), count_occ_app. rewrite (count_split _ _ t (gone_split (gone s))), count_occ_app. fold (picked s). fold (cancelled s).
    rewrite (count_split _ _ t (v_perm n s V)), count_occ_app. lia. }
  assert (Q : forall t, count_occ Nat.eq_dec (queued s) t <= count_occ Nat.eq_dec (queues p) t).
  { intro t. pose proof (queue_budget n p s t R) as B. rewrite !count_occ_app in B. lia. }
  split; [intro t; specialize (P t); specialize (Q t); lia|]. intro N. rewrite (NoDup_count_occ Nat.eq_dec) in N. split.
  - rewrite (NoDup_count_occ Nat.eq_dec). intro t. specialize (P t). specialize (Q t). specialize (N t). lia.
  - intros t I. apply (count_occ_In Nat.eq_dec) in I. specialize (P t). specialize (Q t). specialize (N t). split.
    + apply (count_occ_In Nat.eq_dec). lia.
    + intro C. apply (count_occ_In Nat.eq_dec) in C. lia.
Qed.
Print Assumptions pool_at_most_once.

Lemma exits_idle ws : (forall w, In w ws -> w = WExit) -> flat_map running_of ws = [].
Proof. induction ws as [|w ws IH]; intro H; auto. cbn. rewrite (H w (or_introl eq_refl)), IH; auto. intros; apply H; right; auto. Qed.
(** When Finish has returned every queued task has been executed or was cancelled, the
    queue is empty and all workers are gone. *)
Theorem finish_runs_everything n p s : reachable n p s -> finished s = true -> at_call s = OIdle ->
  tasks s = [] /\ Permutation (queued s) (done s ++ cancelled s) /\ (forall w, In w (workers s) -> w = WExit).
Proof.
  intros R F A. pose proof (reach_inv n p s R) as V. destruct (v_ff n s V F) as [X|X]; [rewrite A in X; discriminate|].
  assert (W : forall w, In w (workers s) -> w = WExit) by (intros w I; apply in_nth in I; destruct I as [j I]; pose proof (v_w n s V j w I) as K; oks K; auto).
  assert (T : tasks s = []).
  { pose proof (v_n n s V) as L. pose proof (v_pos n s V). destruct (workers s) as [|w ws] eqn:E; [cbn in L; lia|].
    assert (N : nth_error (workers s) 0 = Some w) by (rewrite E; auto). pose proof (v_w n s V 0 w N) as K. oks K. apply O4. apply W. left. auto. }
  split; auto. split; auto. rewrite <- (v_fifo n s V), T, app_nil_r. rewrite gone_split. fold (picked s). fold (cancelled s). apply Permutation_app_tail.
  rewrite (v_perm n s V), (exits_idle _ W), app_nil_r. reflexivity.
Qed.
Print Assumptions finish_runs_everything.

(** No lost wake-up: every schedule with finitely many spurious wake-ups comes to rest,
    and a started pool at rest, finished or not, has nothing left to do: no call is
    blocked, no task is waiting or running, and all that was not cancelled is done. *)
Theorem no_lost_wake_up n p s : reachable n p s ->
  Acc (fun b a => proper_step a b) s /\
  (stuck s -> running s = true -> tasks s = [] /\ at_call s = OIdle /\ program s = [] /\ Permutation (queued s) (done s ++ cancelled s)).
Proof.
  intro R. pose proof (reach_inv n p s R) as V. split; [eapply proper_acc; eauto|]. intros K Ru.
  destruct (stuck_running n s V K Ru) as (T & W & A & P & _). split; auto. split; auto. split; auto.
  rewrite <- (v_fifo n s V), T, app_nil_r. rewrite gone_split. fold (picked s). fold (cancelled s). apply Permutation_app_tail.
  rewrite (v_perm n s V), W, app_nil_r. reflexivity.
Qed.
Print Assumptions no_lost_wake_up.

(** Nothing is queued and nothing started after Finish has been called. *)
Theorem finished_pool_accepts_nothing n p s s' : reachable n p s -> finished s = true -> exec s s' ->
  finished s' = true /\ queued s' = queued s /\ (running s = false -> running s' = false).
Proof.
  intros R F E. pose proof (reach_inv n p s R) as V.
  assert (X : finished s' = true /\ queued s' = queued s /\ (running s = false -> running s' = false) /\ inv n s').
  { induction E as [|a b E IH St]; [auto|]. destruct IH as (Fa & Q & Ru & Va). split; [eapply finished_stays; eauto|].
    destruct St as [[i St|St]|i St].
    - split; [destruct St; cbn; auto|]. split; [destruct St; cbn; auto|]. eapply worker_inv; eauto.
    - split; [|split; [|eapply owner_inv; eauto]].
      + destruct St as [u p' A P Fi|u p' A P Fi|u A L|u A|i A N|A N|p' A P Fi|p' A P Fi|A L|A|A|p' A P|A L|A|A Xx|p' A P|A L|A]; cbn; auto.
        pose proof (v_q n a Va) as B. rewrite A in B. specialize (B eq_refl). congruence.
      + destruct St as [u p' A P Fi|u p' A P Fi|u A L|u A|i A N|A N|p' A P Fi|p' A P Fi|A L|A|A|p' A P|A L|A|A Xx|p' A P|A L|A]; cbn; auto.
        pose proof (v_q n a Va) as B. rewrite A in B. specialize (B eq_refl). congruence.
    - split; [destruct St; cbn; auto|]. split; [destruct St; cbn; auto|]. eapply spurious_inv; eauto. }
  tauto.
Qed.
Print Assumptions finished_pool_accepts_nothing.

(** ** C45 *)
(** Once Finish is called on a started pool, or on one that has finished before, every
    schedule is finite, spurious wake-ups included, and ends with all calls returned. *)
Theorem finish_terminates n p s : reachable n p s -> finished s = true -> running s = true \/ futures s = false ->
  Acc (fun b a => step a b) s /\
  forall s', exec s s' -> (forall s'', ~ step s' s'') -> at_call s' = OIdle /\ program s' = [] /\ forall w, In w (workers s') -> w = WExit.
Proof.
  intros R F C. pose proof (reach_inv n p s R) as V.
  assert (Cl : closing s).
  { split; auto. destruct C as [C|C]; auto. right. intros w I. apply in_nth in I. destruct I as [j I]. pose proof (v_w n s V j w I) as K. oks K. auto. }
  split; [eapply closing_acc; eauto|]. intros s' E T.
  assert (X : inv n s' /\ closing s').
  { clear T. induction E as [|a b E IH St]; auto. destruct IH as [Va Ca]. split; [eapply step_inv; eauto|eapply closing_stays; eauto]. }
  destruct X as [V' [F' C']]. assert (K : stuck s') by (intros x St; apply (T x); apply is_proper; auto).
  assert (W : forall w, In w (workers s') -> w = WExit).
  { destruct C' as [Ru|W]; auto. destruct (stuck_running n s' V' K Ru) as (_ & _ & A & P & W). intros w I. destruct (W w I) as [->|X]; auto.
    exfalso. apply in_nth in I. destruct I as [j I]. pose proof (v_w n s' V' j _ I) as Kj. oks Kj. specialize (O7 eq_refl F'). rewrite A in O7. discriminate. }
  destruct (stuck_shape n s' V' K) as (_ & _ & _ & [[A P]|A]); auto. exfalso. apply (K (with_call (with_running (without_futures s') false) OIdle)). apply by_owner. apply o_finish_return; auto.
Qed.
Print Assumptions finish_terminates.

(** Whenever Finish is called and Start was not, Finish never returns: no schedule leaves it. *)
Theorem finish_without_start_blocks n p s : reachable n p s -> running s = false -> futures s = true -> in_finish s ->
  forall s', exec s s' -> in_finish s' /\ running s' = false /\ done s' = done s.
Proof.
  intros R Ru Fu Fi s' E. pose proof (reach_inv n p s R) as V.
  assert (X : inv n s' /\ in_finish s' /\ running s' = false /\ futures s' = true /\ done s' = done s).
  { induction E as [|a b E IH St]; auto. destruct IH as (Va & Ia & Ra & Fa & Da). split; [eapply step_inv; eauto|].
    assert (W : forall j w, nth_error (workers a) j = Some w -> in_loop w = false /\ w <> WExit).
    { intros j w N. pose proof (v_w n a Va j w N) as K. oks K. split; [destruct (in_loop w); auto; specialize (O9 eq_refl); congruence|].
      intros ->. specialize (O11 eq_refl Fa). congruence. }
    destruct St as [[i St|St]|i St].
    - destruct St as [N L|N Rx|N Rx|N|N L|N T F|N T F|N|t rest N T|N L|N|t N]; try (destruct (W _ _ N) as [Z _]; discriminate Z); cbn; auto.
    - unfold in_finish in Ia. destruct St as [u p' A P Fx|u p' A P Fx|u A L|u A|i A N|A N|p' A P Fx|p' A P Fx|A L|A|A|p' A P|A L|A|A Xx|p' A P|A L|A]; rewrite A in Ia; cbn in Ia; try (exfalso; intuition discriminate).
      + cbn. unfold in_finish. cbn. auto.
      + cbn. unfold in_finish. cbn. auto.
      + exfalso. pose proof (v_n n a Va) as Ln. pose proof (v_pos n a Va). destruct (workers a) as [|w ws] eqn:Ew; [cbn in Ln; lia|].
        destruct (W 0 w) as [_ Z]; auto. apply Z. apply Xx; auto. left. auto.
    - destruct St as [N|N]; cbn; auto. }
  tauto.
Qed.
Print Assumptions finish_without_start_blocks.
Lemma run1 {a b c} : exec a b -> proper_step b c -> exec a c.
Proof. intros E St. eapply exec_more; [exact E|]. apply is_proper. auto. Qed.

Lemma run_last {a b c c'} : exec a b -> proper_step b c -> c = c' -> exec a c'.
Proof. intros E St <-. eapply run1; eauto. Qed.

(** Finding: a pool that was never started cannot be destroyed; its queued tasks are
    never run and its destructor blocks for ever. *)
Theorem never_started_destructor_refuted :
  exists n p s, p = [Queue 7; Finish] /\ reachable n p s /\ in_finish s /\ program s = [] /\ forall s', exec s s' -> in_finish s' /\ done s' = [].
Proof.
  pose (s0 := mk_state [] false false None None [WStart] true OIdle [Queue 7; Finish] [] [] [] []).
  assert (E : exec s0 (mk_state [7] false true None None [WStart] true OFLock [] [7] [] [] [])).
  { eapply run_last; [eapply run1; [eapply run1; [eapply run1; [eapply run1; [apply exec_refl|]|]|]|]| |shelve]; apply by_owner.
    - apply (o_queue s0 7 [Finish]); reflexivity.
    - apply (o_queue_lock _ 7); reflexivity.
    - apply (o_queue_push _ 7); reflexivity.
    - apply o_queue_notify_none; [reflexivity|]. cbn. intuition discriminate.
    - apply (o_finish _ []); reflexivity.
    Unshelve. reflexivity. }
  exists 1, [Queue 7; Finish], (mk_state [7] false true None None [WStart] true OFLock [] [7] [] [] []). split; [reflexivity|].
  assert (R : reachable 1 [Queue 7; Finish] (mk_state [7] false true None None [WStart] true OFLock [] [7] [] [] [])) by (exists s0; split; [reflexivity|exact E]).
  split; auto. split; [left; reflexivity|]. split; [reflexivity|]. intros s' E'.
  destruct (finish_without_start_blocks 1 _ _ R eq_refl eq_refl (or_introl eq_refl) s' E') as (A & _ & B). auto.
Qed.
Print Assumptions never_started_destructor_refuted.

(** A complete schedule: one task, one worker. *)
Example pool_example : exists s, reachable 1 [Start; Queue 7; Finish] s /\ finished s = true /\ running s = true /\ in_finish s /\ tasks s = [7].
Proof.
  pose (s0 := mk_state [] false false None None [WStart] true OIdle [Start; Queue 7; Finish] [] [] [] []).
  exists (mk_state [7] true true None None [WStart] true OFLock [] [7] [] [] []). split; [|unfold in_finish; cbn; auto 7]. exists s0. split; [reflexivity|].
  eapply run_last; [eapply run1; [eapply run1; [eapply run1; [eapply run1; [eapply run1; [eapply run1; [eapply run1; [eapply run1; [apply exec_refl|]|]|]|]|]|]|]|]| |shelve]; apply by_owner.
  - apply (o_start s0 [Queue 7; Finish]); reflexivity.
  - apply o_start_lock; reflexivity.
  - apply o_start_set; reflexivity.
  - apply o_start_notify; reflexivity.
  - apply (o_queue _ 7 [Finish]); reflexivity.
  - apply (o_queue_lock _ 7); reflexivity.
  - apply (o_queue_push _ 7); reflexivity.
  - apply o_queue_notify_none; [reflexivity|]. cbn. intuition discriminate.
  - apply (o_finish _ []); reflexivity.
  Unshelve. reflexivity.
Qed.
(** And to its end. *)
Example pool_finished_example : exists s, reachable 1 [Start; Queue 7; Finish] s /\ finished s = true /\ at_call s = OIdle /\ done s = [7] /\ queued s = [7].
Proof.
  pose (s0 := mk_state [] false false None None [WStart] true OIdle [Start; Queue 7; Finish] [] [] [] []).
  exists (mk_state [] false true None None [WExit] false OIdle [] [7] [(7, true)] [7] []). split; [|cbn; auto]. exists s0. split; [reflexivity|].
  eapply run_last; [eapply run1; [eapply run1; [eapply run1; [eapply run1; [eapply run1; [eapply run1; [eapply run1; [eapply run1; [
    eapply run1; [eapply run1; [eapply run1; [eapply run1; [eapply run1; [eapply run1; [eapply run1; [eapply run1; [eapply run1; [eapply run1; [
    apply exec_refl|]|]|]|]|]|]|]|]|]|]|]|]|]|]|]|]|]|]| |shelve].
  - apply by_owner, (o_start s0 [Queue 7; Finish]); reflexivity.
  - apply by_owner, o_start_lock; reflexivity.
  - apply by_owner, o_start_set; reflexivity.
  - apply by_owner, o_start_notify; reflexivity.
  - apply by_owner, (o_queue _ 7 [Finish]); reflexivity.
  - apply by_owner, (o_queue_lock _ 7); reflexivity.
  - apply by_owner, (o_queue_push _ 7); reflexivity.
  - apply by_owner, o_queue_notify_none; [reflexivity|]. cbn. intuition discriminate.
  - apply by_owner, (o_finish _ []); reflexivity.
  - apply by_owner, o_finish_lock; reflexivity.
  - apply by_owner, o_finish_notify; reflexivity.
  - apply (by_worker _ _ 0), w_lock_start; reflexivity.
  - apply (by_worker _ _ 0), w_started; reflexivity.
  - apply (by_worker _ _ 0), w_lock_tasks; reflexivity.
  - apply (by_worker _ _ 0), (w_take _ _ 7 []); reflexivity.
  - apply (by_worker _ _ 0), (w_run _ _ 7); reflexivity.
  - apply (by_worker _ _ 0), w_lock_tasks; reflexivity.
  - apply (by_worker _ _ 0), w_exit; reflexivity.
  - apply by_owner, o_finish_return; [reflexivity|]. cbn. intros _ w [<-|[]]. reflexivity.
  Unshelve. reflexivity.
Qed.
