(** Invariants of the thread pool for C44 and C45. *)
From Coq Require Import List Arith Bool Lia Permutation.
From Verif Require Import ThreadPool_Model ThreadPool_Spec.
Import ListNotations.

Lemma set_nth_length {A} (l : list A) i x : length (set_nth l i x) = length l.
Proof. revert i. induction l; intros [|i]; cbn; auto. Qed.
Lemma nth_set_same {A} (l : list A) i x y : nth_error l i = Some y -> nth_error (set_nth l i x) i = Some x.
Proof. revert i. induction l; intros [|i]; cbn; try discriminate; auto. Qed.
Lemma nth_set_other {A} (l : list A) i j x : i <> j -> nth_error (set_nth l i x) j = nth_error l j.
Proof. revert i j. induction l; intros [|i] [|j]; cbn; auto; lia. Qed.
Lemma in_nth {A} (l : list A) x : In x l <-> exists i, nth_error l i = Some x.
Proof. split; [apply In_nth_error|intros [i H]; eapply nth_error_In; eauto]. Qed.

Definition holds_s (w : wpc) : bool := match w with WCheck | WSleepyS => true | _ => false end.
Definition holds_t (w : wpc) : bool := match w with WPick | WSleepyT | WBack => true | _ => false end.
Definition in_loop (w : wpc) : bool := match w with WLoop | WPick | WSleepyT | WSleepT | WWakeT | WBack | WRun _ => true | _ => false end.
Definition o_holds_s (o : opc) : bool := match o with OSSet | OSNotify => true | _ => false end.
Definition o_holds_t (o : opc) : bool := match o with OQPush _ | OFNotify | OCClear => true | _ => false end.
Definition o_queueing (o : opc) : bool := match o with OQLock _ | OQPush _ | OQNotify | OSLock | OSSet | OSNotify => true | _ => false end.
Definition o_finishing (o : opc) : bool := match o with OFLock | OFNotify | OFWait => true | _ => false end.
Definition o_starting (o : opc) : bool := match o with OSLock | OSSet => true | _ => false end.
Definition o_before_notify (o : opc) : bool := match o with OFLock | OFNotify => true | _ => false end.

Definition wok (s : state) (j : nat) (w : wpc) : Prop :=
  (holds_s w = true <-> start_mutex s = Some (Worker j)) /\
  (holds_t w = true <-> tasks_mutex s = Some (Worker j)) /\
  (w = WSleepyT -> tasks s = []) /\
  (w = WExit -> tasks s = [] /\ finished s = true) /\
  (w = WSleepyS -> running s = false) /\
  (w = WSleepS -> running s = true -> at_call s = OSNotify) /\
  (w = WSleepT -> finished s = true -> o_before_notify (at_call s) = true) /\
  (w = WSleepyT -> finished s = true -> at_call s = OFLock) /\
  (in_loop w = true -> running s = true) /\
  (futures s = false -> w = WExit) /\
  (w = WExit -> futures s = true -> running s = true).
Definition running_of (w : wpc) : list nat := match w with WRun t => [t] | _ => [] end.
Record inv (n : nat) (s : state) : Prop := {
  v_n : length (workers s) = n;
  v_pos : 0 < n;
  v_w : forall j w, nth_error (workers s) j = Some w -> wok s j w;
  v_so : o_holds_s (at_call s) = true <-> start_mutex s = Some Owner;
  v_to : o_holds_t (at_call s) = true <-> tasks_mutex s = Some Owner;
  v_sw : forall j, start_mutex s = Some (Worker j) -> j < n;
  v_tw : forall j, tasks_mutex s = Some (Worker j) -> j < n;
  v_q : o_queueing (at_call s) = true -> finished s = false;
  v_f : o_finishing (at_call s) = true -> finished s = true;
  v_st : o_starting (at_call s) = true -> running s = false;
  v_sn : at_call s = OSNotify -> running s = true;
  v_fut : futures s = false -> running s = false /\ finished s = true;
  v_ff : finished s = true -> o_finishing (at_call s) = true \/ futures s = false;
  v_wake : tasks s <> [] -> at_call s = OQNotify \/ exists j w, nth_error (workers s) j = Some w /\ w <> WSleepT;
  v_fifo : map fst (gone s) ++ tasks s = queued s;
  v_perm : Permutation (picked s) (done s ++ flat_map running_of (workers s)) }.

Lemma flat_set l i w w' : nth_error l i = Some w ->
  exists a b, flat_map running_of l = a ++ running_of w ++ b /\ flat_map running_of (set_nth l i w') = a ++ running_of w' ++ b.
Proof.
  revert i. induction l as [|x l IH]; intros [|i]; cbn; try discriminate.
  - intro H. inversion H; subst. exists [], (flat_map running_of l). auto.
  - intro H. destruct (IH i H) as (a & b & E & F). exists (running_of x ++ a), b. rewrite E, F, <- !app_assoc. auto.
Qed.
Lemma flat_set_none l i w w' : nth_error l i = Some w -> running_of w = [] -> running_of w' = [] -> flat_map running_of (set_nth l i w') = flat_map running_of l.
Proof. intros N A B. destruct (flat_set l i w w' N) as (a & b & E & F). rewrite E, F, A, B. auto. Qed.
Lemma flat_wake f l : (forall w, running_of (f w) = running_of w) -> flat_map running_of (map f l) = flat_map running_of l.
Proof. intro H. induction l; cbn; auto. rewrite H, IHl. auto. Qed.

Ltac oks Hi := destruct Hi as (?O1 & ?O2 & ?O3 & ?O4 & ?O5 & ?O6 & ?O7 & ?O8 & ?O9 & ?O10 & ?O11).
Ltac fin := cbn in *; intuition (try congruence; try discriminate; try lia).

(** The worker list after setting one entry. *)
Lemma set_all (P : nat -> wpc -> Prop) ws i w : (exists w0, nth_error ws i = Some w0) -> P i w ->
  (forall j v, j <> i -> nth_error ws j = Some v -> P j v) -> forall j v, nth_error (set_nth ws i w) j = Some v -> P j v.
Proof.
  intros [w0 N] A B j v E. destruct (Nat.eq_dec i j) as [<-|D].
  - rewrite (nth_set_same _ _ _ _ N) in E. inversion E; subst. auto.
  - rewrite nth_set_other in E by auto. auto.
Qed.
Lemma nth_len {A} (l : list A) i x : nth_error l i = Some x -> i < length l.
Proof. intro H. apply nth_error_Some. congruence. Qed.
Lemma wake_set (ws : list wpc) i w w0 : nth_error ws i = Some w0 -> w <> WSleepT -> exists j v, nth_error (set_nth ws i w) j = Some v /\ v <> WSleepT.
Proof. intros N D. exists i, w. split; auto. eapply nth_set_same; eauto. Qed.

Lemma worker_inv n i s s' : inv n s -> worker_step i s s' -> inv n s'.
Proof.
  intros [Vn Vp Vw Vso Vto Vsw Vtw Vq Vf Vst Vsn Vfut Vff Vwk Vfi Vpe] St.
  destruct St as [N L|N R|N R|N|N L|N T F|N T F|N|t rest N T|N L|N|t N];
    pose proof (nth_len _ _ _ N) as Li; pose proof (Vw i _ N) as Ki; oks Ki.
  all: constructor; cbn in *; rewrite ?set_nth_length; auto.
  all: try (eapply set_all; [eauto| |]; [unfold wok; cbn; fin|intros j v D Nj; pose proof (Vw j v Nj) as Kj; oks Kj; unfold wok; cbn; fin]; fail).
  all: try (intros; fin; fail).
  all: try (intros _; right; eapply wake_set; [exact N|discriminate]).
  all: try (rewrite (flat_set_none _ _ _ _ N) by reflexivity; auto; fail).
  - eapply set_all; [eauto| |].
    + unfold wok; cbn. assert (X : finished s = true -> o_before_notify (at_call s) = true) by (intro Fi; rewrite (O8 eq_refl Fi); reflexivity). fin.
    + intros j v D Nj; pose proof (Vw j v Nj) as Kj; oks Kj; unfold wok; cbn; fin.
  - rewrite T in Vfi. rewrite map_app, <- app_assoc. auto.
  - unfold picked in *. cbn [gone pop with_lock with_worker]. rewrite filter_app, map_app. cbn [filter snd map fst].
    destruct (flat_set (workers s) i WPick (WRun t) N) as (a & b & E & ->). rewrite E in Vpe. cbn [running_of app] in *.
    rewrite Vpe, <- app_assoc. apply Permutation_app_head. rewrite <- Permutation_cons_append. apply Permutation_middle.
  - unfold picked in *. destruct (flat_set (workers s) i (WRun t) WLoop N) as (a & b & E & ->). rewrite E in Vpe. cbn [running_of app] in *.
    rewrite Vpe, <- app_assoc. apply Permutation_app_head. cbn. rewrite <- Permutation_middle. reflexivity.
Qed.

Lemma spurious_inv n i s s' : inv n s -> spurious i s s' -> inv n s'.
Proof.
  intros [Vn Vp Vw Vso Vto Vsw Vtw Vq Vf Vst Vsn Vfut Vff Vwk Vfi Vpe] St.
  destruct St as [N|N]; pose proof (nth_len _ _ _ N) as Li; pose proof (Vw i _ N) as Ki; oks Ki.
  all: constructor; cbn in *; rewrite ?set_nth_length; auto.
  all: try (eapply set_all; [eauto| |]; [unfold wok; cbn; fin|intros j v D Nj; pose proof (Vw j v Nj) as Kj; oks Kj; unfold wok; cbn; fin]; fail).
  all: try (intros; fin; fail).
  all: try (intros _; right; eapply wake_set; [exact N|discriminate]).
  all: try (rewrite (flat_set_none _ _ _ _ N) by reflexivity; auto; fail).
Qed.

Lemma sleepers_held n s o j w : inv n s -> at_call s = o -> nth_error (workers s) j = Some w ->
  (o_holds_s o = true -> holds_s w = false) /\ (o_holds_t o = true -> holds_t w = false).
Proof.
  intros V <- N. pose proof (v_w n s V j w N) as K. oks K. split; intro H.
  - apply (v_so n s V) in H. destruct (holds_s w); [pose proof (proj1 O1 eq_refl); congruence|reflexivity].
  - apply (v_to n s V) in H. destruct (holds_t w); [pose proof (proj1 O2 eq_refl); congruence|reflexivity].
Qed.
Lemma owner_inv n s s' : inv n s -> owner_step s s' -> inv n s'.
Proof.
  intros V St. pose proof V as [Vn Vp Vw Vso Vto Vsw Vtw Vq Vf Vst Vsn Vfut Vff Vwk Vfi Vpe].
  destruct St as [t p A P F|t p A P F|t A L|t A|i A N|A N|p A P F|p A P F|A L|A|A|p A P|A L|A|A E|p A P|A L|A];
    try (pose proof (nth_len _ _ _ N) as Li; pose proof (Vw i _ N) as Ki; oks Ki);
    assert (H : forall j w, nth_error (workers s) j = Some w -> (o_holds_s (at_call s) = true -> holds_s w = false) /\ (o_holds_t (at_call s) = true -> holds_t w = false))
      by (intros; eapply sleepers_held; eauto);
    rewrite A in *; try apply orb_false_iff in F; try apply orb_true_iff in F.
  all: constructor; cbn in *; rewrite ?set_nth_length, ?map_length; auto.
  all: try (intros j w Nj; pose proof (Vw j w Nj) as Kj; pose proof (H j w Nj); oks Kj; unfold wok; cbn; rewrite ?A in *; fin; fail).
  all: try (eapply set_all; [eauto| |]; [unfold wok; cbn; rewrite ?A in *; fin|intros j v D Nj; pose proof (Vw j v Nj) as Kj; pose proof (H j v Nj); oks Kj; unfold wok; cbn; rewrite ?A in *; fin]; fail).
  all: try (intros; fin; fail).
  all: try (rewrite (flat_set_none _ _ _ _ N) by reflexivity; auto; fail).
  all: try (rewrite A; fin; fail).
  - (* push *) intros j w Nj; pose proof (Vw j w Nj) as Kj; pose proof (H j w Nj); oks Kj; unfold wok; cbn; rewrite ?A in *; destruct w; fin.
  - rewrite app_assoc, Vfi. reflexivity.
  - intros _. right. eapply wake_set; [exact N|discriminate].
  - intros _. right. destruct (workers s) as [|w ws] eqn:Ew; [cbn in Vn; lia|]. exists 0, w. split; auto. intros ->. apply N. left. auto.
  - (* running is set *) intros j w Nj; pose proof (Vw j w Nj) as Kj; pose proof (H j w Nj); oks Kj; unfold wok; cbn; rewrite ?A in *; destruct w; fin.
  - intros j w Nj. rewrite nth_error_map in Nj. destruct (nth_error (workers s) j) as [v|] eqn:Ev; [|discriminate]. inversion Nj; subst w; clear Nj.
    pose proof (Vw j v Ev) as Kj; pose proof (H j v Ev); oks Kj; unfold wok; cbn; rewrite ?A in *; destruct v; fin.
  - intro T. destruct (Vwk T) as [X|(j & w & Nj & D)]; [discriminate|]. right. exists j, (wake_start w). rewrite nth_error_map, Nj. split; auto. destruct w; cbn; congruence.
  - rewrite flat_wake; auto. intros []; auto.
  - (* Finish holds the mutex *) intros j w Nj; pose proof (Vw j w Nj) as Kj; pose proof (H j w Nj); oks Kj; unfold wok; cbn; rewrite ?A, ?L in *; destruct w; fin.
  - intros j w Nj. rewrite nth_error_map in Nj. destruct (nth_error (workers s) j) as [v|] eqn:Ev; [|discriminate]. inversion Nj; subst w; clear Nj.
    pose proof (Vw j v Ev) as Kj; pose proof (H j v Ev); oks Kj; unfold wok; cbn; rewrite ?A in *; destruct v; fin.
  - intro T. destruct (Vwk T) as [X|(j & w & Nj & D)]; [discriminate|]. right. exists j, (wake_tasks w). rewrite nth_error_map, Nj. split; auto. destruct w; cbn; congruence.
  - rewrite flat_wake; auto. intros []; auto.
  - intros j w Nj; pose proof (Vw j w Nj) as Kj; pose proof (H j w Nj). assert (w = WExit).
    { destruct (futures s) eqn:Fu; [apply E; auto; eapply nth_error_In; eauto|]. oks Kj. auto. }
    subst w. oks Kj; unfold wok; cbn; rewrite ?A in *; fin.
  - rewrite app_nil_r, map_app, map_map. cbn [fst]. rewrite map_id. auto.
  - rewrite filter_app, map_app. assert (X : forall l, filter snd (map (fun t : nat => (t, false)) l) = []) by (induction l; auto). rewrite X. cbn. rewrite app_nil_r. auto.
Qed.

Lemma init_inv n p s : ThreadPool n p = Some s -> inv n s /\ program s = p /\ at_call s = OIdle /\ futures s = true /\ running s = false /\ workers s = repeat WStart n.
Proof.
  unfold ThreadPool. destruct (Nat.eqb_spec n 0) as [|D]; [discriminate|]. intro E. inversion E; subst s; clear E. split; [|cbn; auto].
  assert (W : forall j w, nth_error (repeat WStart n) j = Some w -> w = WStart) by (intros j w E; apply nth_error_In in E; eapply repeat_spec; eauto).
  constructor; cbn; try discriminate; try (split; discriminate); try lia; auto.
  - apply repeat_length.
  - intros j w E. rewrite (W j w E). unfold wok. cbn. fin.
  - congruence.
  - clear. induction n; cbn; auto.
Qed.
Lemma step_inv n s s' : inv n s -> step s s' -> inv n s'.
Proof. intros V [[i St|St]|i St]; [eapply worker_inv|eapply owner_inv|eapply spurious_inv]; eauto. Qed.
Lemma exec_inv n s s' : inv n s -> exec s s' -> inv n s'.
Proof. intros V E. induction E; auto. eapply step_inv; eauto. Qed.
Lemma reach_inv n p s : reachable n p s -> inv n s.
Proof. intros (s0 & I & E). apply init_inv in I. destruct I as [V _]. eapply exec_inv; eauto. Qed.

