(** Proofs about the comparison functions over rationals. *)
From Coq Require Import List ZArith QArith Qabs Bool Arith Lia Lqa Permutation.
From Verif Require Import Base Maps Binary64 RuleStates_Model RuleStates_Spec RuleStates_Proofs Compare_Model Compare_Spec.
Import ListNotations.
Local Open Scope nat_scope.

Definition silent (r : outcome cres) : Prop := r = Ok None.
Definition returns {A} (r : outcome A) : Prop := exists x, r = Ok x.

(** ** Collectors *)
Definition fails (rs : list cres) : nat := length (filter (fun r => match r with Some _ => true | None => false end) rs).
Lemma add_all_ok rs c : add_all (map Ok rs) c = Ok (mk_collector (c_count c + length rs) (c_failed c + fails rs)).
Proof.
  revert c. induction rs as [|r rs IH]; intros [n f]; cbn [map add_all obind length fails filter AddResult c_count c_failed].
  - rewrite !Nat.add_0_r. reflexivity.
  - rewrite IH. unfold AddResult, fails. destruct r; cbn [c_count c_failed filter length]; do 2 f_equal; lia.
Qed.
Lemma collect_ok (rs : list cres) : collect (map (@Ok cres) rs) = Ok (if Nat.ltb 0 (fails rs) then Some (Summary (fails rs) (length rs)) else None).
Proof. unfold collect. rewrite add_all_ok. reflexivity. Qed.
Lemma fails_zero rs : fails rs = 0 <-> Forall (fun r => r = None) rs.
Proof.
  unfold fails. induction rs as [|r rs IH]; cbn [filter].
  - split; auto.
  - destruct r; cbn [length]; split; intro H.
    + discriminate.
    + inversion H; discriminate.
    + constructor; [reflexivity|apply IH, H].
    + inversion H; apply IH; auto.
Qed.
Lemma all_ok_or (l : list (outcome cres)) :
  (exists rs, l = map (@Ok cres) rs) \/ (exists rs x l', l = map (@Ok cres) rs ++ x :: l' /\ (x = Throw \/ x = UB)).
Proof.
  induction l as [|r l IH].
  - left. exists []. reflexivity.
  - destruct r as [x| |].
    + destruct IH as [(rs & ->)|(rs & y & l' & -> & H)].
      * left. exists (x :: rs). reflexivity.
      * right. exists (x :: rs), y, l'. auto.
    + right. exists [], Throw, l. auto.
    + right. exists [], UB, l. auto.
Qed.
Lemma add_all_app l1 l2 c : add_all (l1 ++ l2) c = obind (add_all l1 c) (fun c => add_all l2 c).
Proof. revert c. induction l1 as [|r l1 IH]; intro c; cbn; [reflexivity|]. destruct r; cbn; auto. Qed.
Lemma collect_stops rs x l : x = Throw \/ x = UB -> collect (map Ok rs ++ x :: l) = match x with Ok _ => Ok None | Throw => Throw | UB => UB end.
Proof. intros [-> | ->]; unfold collect; rewrite add_all_app, add_all_ok; reflexivity. Qed.

Lemma Forall_map {A B} (f : A -> B) P l : Forall P (map f l) <-> Forall (fun x => P (f x)) l.
Proof. rewrite !Forall_forall. split; intros H x Hx; [apply H, in_map, Hx|]. apply in_map_iff in Hx as (y & <- & Hy). auto. Qed.
Lemma collect_silent l : silent (collect l) <-> Forall silent l.
Proof.
  unfold silent. destruct (all_ok_or l) as [(rs & ->)|(rs & x & l' & -> & H)].
  - rewrite collect_ok, Forall_map.
    transitivity (fails rs = 0).
    + destruct (Nat.ltb_spec 0 (fails rs)); split; intro E; try discriminate; try lia; auto.
    + rewrite fails_zero, !Forall_forall. split; intros E r Hr; specialize (E r Hr); cbv beta in *; unfold cres in *; congruence.
  - rewrite (collect_stops _ _ _ H). rewrite Forall_app. split.
    + destruct H as [-> | ->]; discriminate.
    + intros [_ E]. inversion E; subst. destruct H; congruence.
Qed.
Lemma collect_returns l : returns (collect l) <-> Forall returns l.
Proof.
  unfold returns. destruct (all_ok_or l) as [(rs & ->)|(rs & x & l' & -> & H)].
  - rewrite collect_ok, Forall_map. split; intros _; [|eexists; reflexivity]. apply Forall_forall. intros r _. exists r. reflexivity.
  - rewrite (collect_stops _ _ _ H), Forall_app. split.
    + intros (y & E). destruct H as [-> | ->]; discriminate.
    + intros [_ E]. inversion E; subst. destruct H as [-> | ->]; destruct H2; discriminate.
Qed.
Lemma collect_throw l : collect l = Throw <-> exists l1 l2, l = l1 ++ Throw :: l2 /\ Forall returns l1.
Proof.
  destruct (all_ok_or l) as [(rs & ->)|(rs & x & l' & -> & H)].
  - rewrite collect_ok. split; [discriminate|]. intros (l1 & l2 & E & _). exfalso.
    assert (In Throw (map (@Ok cres) rs)) as K by (rewrite E; apply in_elt). apply in_map_iff in K as (? & ? & _). discriminate.
  - rewrite (collect_stops _ _ _ H). split.
    + intro E. destruct H as [-> | ->]; [|discriminate]. exists (map Ok rs), l'. split; auto. apply Forall_map, Forall_forall. intros r _. exists r. reflexivity.
    + intros (l1 & l2 & E & F). destruct H as [-> | ->]; [reflexivity|]. exfalso. clear -E F. revert l1 E F.
      induction rs as [|r rs IH]; intros [|y l1] E F; cbn in E.
      * discriminate.
      * inversion E; subst. inversion F; subst. destruct H1; discriminate.
      * discriminate.
      * inversion E; subst. inversion F; subst. eapply IH; eauto.
Qed.

(** ** Simple comparisons *)
Lemma unless_true c : unless_same c = None <-> c = true.
Proof. destruct c; cbn; split; congruence. Qed.
Lemma silent_ok r : silent (Ok r) <-> r = None.
Proof. unfold silent. split; [intro H; injection H; auto|intros ->; reflexivity]. Qed.
Lemma eq_size_n a b : eq_size a b = None <-> a = b.
Proof. unfold eq_size. rewrite unless_true. apply Nat.eqb_eq. Qed.
Lemma eq_id_n a b : eq_id a b = None <-> a = b.
Proof. exact (eq_size_n a b). Qed.
Lemma eq_enum_n a b : eq_enum a b = None <-> a = b.
Proof. exact (eq_size_n a b). Qed.
Lemma eq_bool_n a b : eq_bool a b = None <-> a = b.
Proof. unfold eq_bool. rewrite unless_true. apply eqb_true_iff. Qed.
Lemma eq_ptr_n a b : eq_ptr a b = None <-> a = b.
Proof.
  unfold eq_ptr. rewrite unless_true. destruct a, b; try (split; congruence). rewrite Nat.eqb_eq. split; congruence.
Qed.
Lemma far_near t a b : far_q t a b = false <-> near t a b.
Proof. unfold far_q, near. apply Qltb_false. Qed.
Lemma eq_double_n a b : eq_double Q far_q eps_q a b = None <-> same_d a b.
Proof. unfold eq_double. rewrite unless_true, negb_true_iff, far_near. reflexivity. Qed.
Lemma eq_dvalue_n a b : eq_dvalue a b = None <-> dv_value a = dv_value b.
Proof. unfold eq_dvalue. rewrite unless_true. apply str_eqb_ok. Qed.

Lemma Forall_cons_iff_ {A} (P : A -> Prop) x l : Forall P (x :: l) <-> P x /\ Forall P l.
Proof. split; [intro H; inversion H; auto|intros []; auto]. Qed.
Lemma Forall_nil_iff_ {A} (P : A -> Prop) : Forall P [] <-> True.
Proof. split; auto. Qed.
Lemma returns_ok {A} (x : A) : returns (Ok x) <-> True.
Proof. split; auto. intros _. exists x. reflexivity. Qed.

Ltac coll := rewrite ?collect_silent, ?Forall_app, ?Forall_cons_iff_, ?Forall_nil_iff_, ?silent_ok,
  ?eq_size_n, ?eq_id_n, ?eq_enum_n, ?eq_bool_n, ?eq_double_n.
Ltac collr := rewrite ?collect_returns, ?Forall_app, ?Forall_cons_iff_, ?Forall_nil_iff_, ?returns_ok.

(** ** Vectors and maps *)
Lemma combine_forall2 {A} (P : A -> A -> Prop) (a b : list A) :
  length a = length b -> (Forall (fun p => P (fst p) (snd p)) (combine a b) <-> Forall2 P a b).
Proof.
  revert b. induction a as [|x a IH]; intros [|y b] L; cbn in *; try discriminate.
  - split; auto.
  - rewrite Forall_cons_iff_, IH by lia. cbn. split; [intros []; auto|intro H; inversion H; auto].
Qed.
Lemma Forall2_len {A B} (P : A -> B -> Prop) a b : Forall2 P a b -> length a = length b.
Proof. induction 1; cbn; auto. Qed.
Lemma eq_vector_silent {A} (f : A -> A -> outcome cres) a b :
  silent (eq_vector f a b) <-> Forall2 (fun x y => silent (f x y)) a b.
Proof.
  unfold eq_vector. coll. rewrite Forall_map. split.
  - intros [L H]. apply (combine_forall2 (fun x y => silent (f x y))); auto.
  - intro H. pose proof (Forall2_len _ _ _ H) as L. split; auto. apply (combine_forall2 (fun x y => silent (f x y))); auto.
Qed.
Lemma eq_vector_returns {A} (f : A -> A -> outcome cres) a b :
  (forall x y, In x a -> In y b -> returns (f x y)) -> returns (eq_vector f a b).
Proof.
  intro H. unfold eq_vector. collr. split; auto. apply Forall_map, Forall_forall. intros [x y] I. apply H; [eapply in_combine_l|eapply in_combine_r]; exact I.
Qed.
Lemma Forall2_iff {A B} (P R : A -> B -> Prop) a b : (forall x y, In x a -> In y b -> (P x y <-> R x y)) -> (Forall2 P a b <-> Forall2 R a b).
Proof.
  revert b. induction a as [|x a IH]; intros [|y b] H; try (split; intro K; inversion K; fail); [split; auto|].
  assert (IH' := IH b (fun u v Hu Hv => H u v (or_intror Hu) (or_intror Hv))).
  pose proof (H x y (or_introl eq_refl) (or_introl eq_refl)) as E.
  split; intro K; inversion K; subst; constructor; tauto.
Qed.

Lemma mfind_some {A} k (v : A) m : is_map m -> (mfind Nat.eqb k m = Some v <-> In (k, v) m).
Proof.
  intro N. split; [apply mfind_in; intros; apply Nat.eqb_eq|apply mfind_nodup; [intros; apply Nat.eqb_eq|exact N]].
Qed.
Lemma mfind_key {A} k (m : list (nat * A)) : (exists v, mfind Nat.eqb k m = Some v) <-> In k (map fst m).
Proof.
  rewrite <- (mhas_true Nat.eqb (V := A)). apply mhas_in. intros; apply Nat.eqb_eq.
Qed.
Lemma mfind_no {A} k (m : list (nat * A)) : mfind Nat.eqb k m = None <-> ~ In k (map fst m).
Proof. apply mfind_none. intros; apply Nat.eqb_eq. Qed.

Lemma keys_same (a b : list nat) : NoDup a -> NoDup b -> length a = length b -> incl a b -> forall k, In k a <-> In k b.
Proof.
  intros A B L I k. split; [apply I|]. intro H.
  assert (incl b a) by (apply NoDup_length_incl; auto; lia). auto.
Qed.
Lemma keys_length (a b : list nat) : NoDup a -> NoDup b -> (forall k, In k a <-> In k b) -> length a = length b.
Proof.
  intros A B H. apply Nat.le_antisymm; apply NoDup_incl_length; auto; intros k; apply H.
Qed.
Lemma map_lengths {A B} (a : list (nat * A)) (b : list (nat * B)) : length (map fst a) = length (map fst b) <-> length a = length b.
Proof. rewrite !map_length. reflexivity. Qed.

(** A map [a] checked entry by entry against [b], after the sizes. *)
Lemma sizes_entries {A} (R : A -> A -> Prop) (a b : list (nat * A)) : is_map a -> is_map b ->
  (length a = length b /\ Forall (fun kv => exists w, mfind Nat.eqb (fst kv) b = Some w /\ R (snd kv) w) a <-> same_map R a b).
Proof.
  intros A' B'. rewrite Forall_forall. split.
  - intros [L H]. split.
    + apply keys_same; auto; [rewrite !map_length; exact L|]. intros k K. apply in_map_iff in K as ([k' v] & E & I). cbn in E; subst k'.
      destruct (H (k, v) I) as (w & F & _). apply mfind_key. eauto.
    + intros k v w I J. destruct (H (k, v) I) as (w' & F & S). cbn in *. apply mfind_some in J; auto. congruence.
  - intros [K H]. split.
    + apply map_lengths, keys_length; auto.
    + intros [k v] I. cbn. assert (In k (map fst b)) as Kb by (apply K; apply in_map_iff; exists (k, v); auto).
      apply mfind_key in Kb as (w & F). exists w. split; auto. eapply H; eauto. apply mfind_some; auto.
Qed.
Lemma map_at_silent {A} k (m : list (nat * A)) (f : A -> outcome cres) :
  silent (map_at k m f) <-> exists w, mfind Nat.eqb k m = Some w /\ silent (f w).
Proof.
  unfold map_at. destruct (mfind Nat.eqb k m) as [w|].
  - split; [intro H; exists w; auto|]. intros (w' & E & H). inversion E; subst; auto.
  - split; [discriminate|]. intros (w' & E & _). discriminate.
Qed.
Lemma Forall_flat_map {A B} (f : A -> list B) P l : Forall P (flat_map f l) <-> Forall (fun x => Forall P (f x)) l.
Proof. induction l; cbn; [split; auto|]. rewrite Forall_app, Forall_cons_iff_, IHl. reflexivity. Qed.
Lemma Forall_iff_ {A} (P R : A -> Prop) l : (forall x, In x l -> (P x <-> R x)) -> (Forall P l <-> Forall R l).
Proof. intro H. rewrite !Forall_forall. split; intros K x Hx; apply H; auto. Qed.

Lemma eq_state_map_silent {A} (f : A -> A -> outcome cres) a b : is_map a -> is_map b ->
  (silent (eq_state_map f a b) <-> same_map (fun v w => silent (f v w)) a b).
Proof.
  intros A' B'. unfold eq_state_map. cbv zeta. coll. rewrite Forall_flat_map.
  rewrite <- sizes_entries by assumption.
  assert (E : length a = length b ->
    (Forall (fun x : nat * A => Forall silent
        ([Ok (eq_bool (has_value (mfind Nat.eqb (fst x) a)) true); Ok (eq_bool (has_value (mfind Nat.eqb (fst x) b)) true)] ++
         match mfind Nat.eqb (fst x) a with
         | Some v => match mfind Nat.eqb (fst x) b with Some w => [f v w] | None => [] end
         | None => []
         end)) (if Nat.ltb (length a) (length b) then b else a) <->
     Forall (fun kv => exists w, mfind Nat.eqb (fst kv) b = Some w /\ silent (f (snd kv) w)) a)).
  { intro L. rewrite L, Nat.ltb_irrefl. apply Forall_iff_. intros [k v] I. cbn [fst snd].
    rewrite (proj2 (mfind_some k v a A') I). rewrite Forall_app, !Forall_cons_iff_, !silent_ok, !eq_bool_n. cbn [has_value].
    destruct (mfind Nat.eqb k b) as [w|]; cbn [has_value].
    - rewrite Forall_cons_iff_. split; [intros (_ & S & _); exists w; auto|]. intros (w' & E & S). inversion E; subst. auto.
    - split; [intros ((_ & E & _) & _); discriminate|]. intros (w & E & _). discriminate. }
  split; intros [L H]; split; auto; apply E; auto.
Qed.
Lemma eq_state_map_returns {A} (f : A -> A -> outcome cres) a b : (forall x y, returns (f x y)) -> returns (eq_state_map f a b).
Proof.
  intro H. unfold eq_state_map. cbv zeta. collr. split; auto. rewrite Forall_flat_map. apply Forall_forall. intros [k v] _. cbn [fst].
  rewrite Forall_app, !Forall_cons_iff_, !returns_ok. split; auto.
  destruct (mfind Nat.eqb k a), (mfind Nat.eqb k b); auto.
Qed.

(** ** Zones, states and rules *)
Lemma eq_rng_s a b : silent (eq_rng Q far_q eps_q a b) <-> same_rng a b.
Proof. unfold eq_rng, same_rng. coll. tauto. Qed.
Lemma eq_lrange_s a b : silent (qeq_lrange a b) <-> same_lrange a b.
Proof. unfold qeq_lrange, eq_lrange, same_lrange. coll. rewrite eq_rng_s. tauto. Qed.
Lemma eq_zone_s a b : silent (qeq_zone a b) <-> same_zone a b.
Proof.
  unfold qeq_zone, eq_lroute, same_zone, eq_lranges. coll. rewrite eq_vector_silent.
  rewrite (Forall2_iff _ same_lrange a b (fun x y _ _ => eq_lrange_s x y)). tauto.
Qed.
Lemma eq_dustate_s a b : silent (eq_dustate a b) <-> same_dustate a b.
Proof. unfold eq_dustate, same_dustate. coll. tauto. Qed.
Lemma Forall2_eq {A} (a b : list A) : Forall2 eq a b <-> a = b.
Proof.
  split; [induction 1; congruence|intros ->; induction b; auto].
Qed.
Lemma eq_ids_s a b : silent (eq_ids a b) <-> a = b.
Proof.
  unfold eq_ids. rewrite eq_vector_silent, <- Forall2_eq. apply Forall2_iff. intros x y _ _. rewrite silent_ok. apply eq_id_n.
Qed.
Lemma eq_rwstate_s a b : silent (eq_rwstate a b) <-> same_rwstate a b.
Proof. unfold eq_rwstate, same_rwstate. coll. rewrite eq_ids_s. tauto. Qed.
Lemma same_map_iff {A} (P R : A -> A -> Prop) a b : (forall x y, P x y <-> R x y) -> (same_map P a b <-> same_map R a b).
Proof. intro H. unfold same_map. split; intros [K V]; split; auto; intros k v w I J; apply H; eauto. Qed.

Lemma static_is {A} (m : list (nat * A)) : is_static m = true <-> exists k v, m = [(k, v)].
Proof.
  unfold is_static. rewrite Nat.eqb_eq. split; [|intros (k & v & ->); reflexivity].
  destruct m as [|[k v] [|]]; cbn; try discriminate. eauto.
Qed.
Lemma same_map_length {A} (R : A -> A -> Prop) a b : is_map a -> is_map b -> same_map R a b -> length a = length b.
Proof. intros A' B' [K _]. apply map_lengths, keys_length; auto. Qed.
Lemma same_map_static {A} (R : A -> A -> Prop) a b : is_map a -> is_map b -> same_map R a b -> is_static a = is_static b.
Proof. intros A' B' S. unfold is_static. rewrite (same_map_length R a b); auto. Qed.
Lemma same_map_single {A} (R : A -> A -> Prop) k v l w : same_map R [(k, v)] [(l, w)] <-> k = l /\ R v w.
Proof.
  unfold same_map. cbn. split.
  - intros [K V]. assert (k = l) by (destruct (K k) as [[E|[]] _]; auto). subst. split; auto. eapply V; eauto.
  - intros [-> H]. split; [tauto|]. intros k v' w' [E|[]] [F|[]]. inversion E; inversion F; subst; auto.
Qed.

Lemma eq_durule_s a b : is_map (du_states _ a) -> is_map (du_states _ b) -> (silent (qeq_durule a b) <-> same_durule a b).
Proof.
  intros A B. unfold qeq_durule, eq_durule, same_durule. coll. fold (qeq_lrange (du_zone Q a) (du_zone Q b)).
  rewrite eq_lrange_s, eq_state_map_silent by assumption. rewrite (same_map_iff _ _ _ _ eq_dustate_s).
  split; [tauto|]. intros (I & Z & S). pose proof (same_map_static _ _ _ A B S) as E. split; [tauto|].
  rewrite <- E. destruct (is_static (du_states Q a)) eqn:T; cbn [andb]; [|constructor].
  pose proof E as T2. symmetry in T2. apply static_is in T as (k & v & Ha). apply static_is in T2 as (l & w & Hb).
  rewrite Ha, Hb in *. cbn. constructor; auto. apply eq_dustate_s. apply same_map_single in S. tauto.
Qed.

(** ** Related bulb groups *)
Definition sub_ids (a b : list nat) : Prop := forall x, In x a -> In x b.
Lemma vmem_in x l : vmem x l = true <-> In x l.
Proof.
  unfold vmem. rewrite existsb_exists. split; [intros (y & I & E); apply Nat.eqb_eq in E; subst; auto|].
  intro I. exists x. rewrite Nat.eqb_refl. auto.
Qed.
Lemma group_checks_s l w : Forall silent (group_checks l w) <-> sub_ids l w.
Proof.
  unfold sub_ids. induction l as [|x l IH]; cbn [group_checks].
  - split; auto. intros _ x [].
  - destruct (vmem x w) eqn:E.
    + rewrite Forall_cons_iff_, IH, silent_ok, eq_bool_n. apply vmem_in in E. split.
      * intros [_ H] y [<-|I]; auto.
      * intro H. split; auto. intros y I. apply H. right; auto.
    + rewrite Forall_cons_iff_, silent_ok, eq_bool_n. split; [intros []; discriminate|]. intro H.
      assert (In x w) as K by (apply H; left; auto). apply vmem_in in K. congruence.
Qed.
Lemma light_checks_s a b : Forall silent (light_checks a b) <->
  Forall (fun kv => exists w, mfind Nat.eqb (fst kv) b = Some w /\ sub_ids (snd kv) w) a.
Proof.
  induction a as [|[k l] a IH]; cbn [light_checks].
  - split; auto.
  - rewrite Forall_cons_iff_. cbn [fst snd]. destruct (mfind Nat.eqb k b) as [w|].
    + rewrite Forall_cons_iff_, Forall_app, IH, group_checks_s, silent_ok, eq_bool_n. split.
      * intros (_ & H1 & H2). split; auto. exists w. auto.
      * intros ((w' & E & H1) & H2). inversion E; subst. auto.
    + rewrite Forall_cons_iff_, silent_ok, eq_bool_n. split; [intros []; discriminate|]. intros ((w & E & _) & _). discriminate.
Qed.
Lemma eq_bulb_groups_s a b : is_map a -> is_map b -> (silent (eq_bulb_groups a b) <-> same_map sub_ids a b).
Proof.
  intros A B. unfold eq_bulb_groups. coll. rewrite <- sizes_entries by assumption. rewrite <- light_checks_s.
  destruct (Nat.eqb_spec (length a) (length b)) as [L|L]; [reflexivity|]. split; intros []; contradiction.
Qed.
Lemma light_checks_returns a b : Forall returns (light_checks a b).
Proof.
  assert (G : forall l w, Forall returns (group_checks l w)).
  { intros l w. induction l as [|x l IH]; cbn; auto. destruct (vmem x w); constructor; auto; apply returns_ok; auto. }
  induction a as [|[k l] a IH]; cbn [light_checks]; auto. destruct (mfind Nat.eqb k b).
  - constructor; [apply returns_ok; auto|]. apply Forall_app; auto.
  - constructor; auto. apply returns_ok; auto.
Qed.
Lemma eq_bulb_groups_returns a b : returns (eq_bulb_groups a b).
Proof.
  unfold eq_bulb_groups. collr. split; auto. destruct (Nat.eqb (length a) (length b)); auto. apply light_checks_returns.
Qed.

Definition rw_maps (r : rwrule Q) : Prop := indexed ws_id (rw_states _ r) /\ is_map (rw_groups _ r).
Lemma eq_rwrule_s a b : rw_maps a -> rw_maps b -> (silent (qeq_rwrule a b) <-> same_rwrule_with sub_ids a b).
Proof.
  intros ((A & KA) & A') ((B & KB) & B'). unfold qeq_rwrule, eq_rwrule, same_rwrule_with. coll.
  fold (qeq_zone (rw_zone Q a) (rw_zone Q b)). rewrite eq_zone_s, eq_bulb_groups_s by assumption.
  assert (E : is_static (rw_states Q a) = is_static (rw_states Q b) ->
    (Forall silent (if is_static (rw_states Q a) && is_static (rw_states Q b)
       then [obind (static_state (rw_states Q a)) (fun x => obind (static_state (rw_states Q b)) (fun y => eq_rwstate x y))]
       else [eq_state_map eq_rwstate (rw_states Q a) (rw_states Q b)]) <->
     same_map same_rwstate (rw_states Q a) (rw_states Q b))).
  { intro E. rewrite <- E. destruct (is_static (rw_states Q a)) eqn:T; cbn [andb].
    - pose proof E as T2. symmetry in T2. apply static_is in T as (k & v & Ha). apply static_is in T2 as (l & w & Hb).
      rewrite Ha, Hb in *. cbn [static_state obind]. rewrite Forall_cons_iff_, Forall_nil_iff_, eq_rwstate_s, same_map_single.
      pose proof (KA k v (or_introl eq_refl)). pose proof (KB l w (or_introl eq_refl)).
      split; [intros [S _]; split; auto; destruct S; congruence|tauto].
    - rewrite Forall_cons_iff_, Forall_nil_iff_, eq_state_map_silent by assumption. rewrite (same_map_iff _ _ _ _ eq_rwstate_s). tauto. }
  split.
  - intros ((I & Z & T & S & _) & H & G & _). specialize (E S). tauto.
  - intros (I & Z & T & S & G). pose proof (same_map_static _ _ _ A B S) as St. specialize (E St). tauto.
Qed.
Lemma sub_both a b : is_map (rw_groups _ a) -> is_map (rw_groups _ b) ->
  (same_rwrule_with sub_ids a b /\ same_rwrule_with sub_ids b a <-> same_rwrule a b).
Proof.
  intros A B. unfold same_rwrule, same_rwrule_with.
  assert (G : same_map sub_ids (rw_groups Q a) (rw_groups Q b) /\ same_map sub_ids (rw_groups Q b) (rw_groups Q a) <->
              same_map same_ids (rw_groups Q a) (rw_groups Q b)).
  { unfold same_map, sub_ids, same_ids. split.
    - intros [[K V] [_ W]]. split; auto. intros k v w I J x. split; [eapply V|eapply W]; eauto.
    - intros [K V]. split; split; auto.
      + intros k v w I J x. apply (V k v w I J).
      + intro k. rewrite K. tauto.
      + intros k v w I J x. apply (V k w v J I). }
  assert (Z : same_zone (rw_zone Q a) (rw_zone Q b) -> same_zone (rw_zone Q b) (rw_zone Q a)).
  { intro H. induction H; constructor; auto. destruct H as (L & (H1 & H2)). split; auto. unfold same_rng, same_d, near in *.
    split; rewrite Qabs_Qminus; assumption. }
  assert (S : same_map same_rwstate (rw_states Q a) (rw_states Q b) -> same_map same_rwstate (rw_states Q b) (rw_states Q a)).
  { intros [K V]. split; [intro k; rewrite K; tauto|]. intros k v w I J. destruct (V k w v J I) as (? & ? & ?). repeat split; auto. }
  split.
  - intros [(H1 & H2 & H3 & H4 & H5) (_ & _ & _ & _ & H6)]. tauto.
  - intros (H1 & H2 & H3 & H4 & H5). apply G in H5 as [H5 H6]. split; (split; [|split; [|split; [|split]]]); auto.
Qed.

(** ** Options *)
Lemma eq_opt_s a b : silent (eq_opt_double Q far_q eps_q a b) <-> both same_d a b.
Proof.
  unfold eq_opt_double. coll. destruct a as [x|], b as [y|]; cbn [has_value both].
  - rewrite Forall_cons_iff_, silent_ok, eq_double_n. split; [tauto|]. auto.
  - split; [intros []; discriminate|tauto].
  - split; [intros []; discriminate|tauto].
  - split; auto.
Qed.
Lemma eq_opt_throws a b : eq_opt_double Q far_q eps_q a b = Throw <-> a <> None /\ b = None.
Proof.
  destruct a as [x|], b as [y|].
  1: { assert (R : returns (eq_opt_double Q far_q eps_q (Some x) (Some y))).
       { unfold eq_opt_double. collr. auto. }
       destruct R as (r & ->). split; [discriminate|intros []; discriminate]. }
  all: split; try discriminate; try (intros []; congruence); try reflexivity.
  - intros _. split; congruence.
Qed.
Lemma has_both {A} (R : A -> A -> Prop) a b : both R a b -> has_value a = has_value b.
Proof. destruct a, b; cbn; tauto. Qed.
Lemma eq_next_s a b : silent (qeq_next a b) <-> same_next a b.
Proof.
  unfold qeq_next, eq_next, same_next. coll. rewrite eq_opt_s. split; [tauto|]. intros [E H]. pose proof (has_both _ _ _ H). auto.
Qed.
Lemma eq_nexts_s a b : silent (qeq_nexts a b) <-> Forall2 same_next a b.
Proof.
  unfold qeq_nexts, eq_nexts. coll.
  rewrite <- (Forall2_iff _ _ a b (fun x y _ _ => eq_next_s x y)). split.
  - intros [L H]. rewrite L, Nat.eqb_refl, Forall_map in H. apply (combine_forall2 (fun x y => silent (qeq_next x y)) a b L). exact H.
  - intro H. pose proof (Forall2_len _ _ _ H) as L. split; auto. rewrite L, Nat.eqb_refl, Forall_map.
    apply (combine_forall2 (fun x y => silent (qeq_next x y)) a b L). exact H.
Qed.
Lemma eq_rwresult_s a b : silent (qeq_rwresult a b) <-> same_rwresult a b.
Proof.
  unfold qeq_rwresult, eq_rwresult, same_rwresult. coll.
  destruct (wr_next Q a) as [[x d]|], (wr_next Q b) as [[y e]|]; cbn [has_value both fst snd].
  - coll. destruct d as [u|], e as [v|]; cbn [has_value both].
    + coll. tauto.
    + split; [intros (_ & (_ & E & _) & _); discriminate|tauto].
    + split; [intros (_ & (_ & E & _) & _); discriminate|tauto].
    + rewrite Forall_nil_iff_. tauto.
  - split; [intros ((_ & E & _) & _); discriminate|tauto].
  - split; [intros ((_ & E & _) & _); discriminate|tauto].
  - rewrite Forall_nil_iff_. tauto.
Qed.
Lemma eq_slrule_s a b : silent (qeq_slrule a b) <-> same_slrule a b.
Proof.
  unfold qeq_slrule, eq_slrule, same_slrule. coll. fold (qeq_lrange (sl_zone Q a) (sl_zone Q b)). rewrite eq_lrange_s. tauto.
Qed.

(** ** Phases *)
Lemma eq_bulb_states_s a b : match a with Some m => is_map m | None => True end -> match b with Some m => is_map m | None => True end ->
  (silent (eq_bulb_states a b) <-> both (same_map eq) a b).
Proof.
  intros A B. unfold eq_bulb_states. coll. destruct a as [ma|], b as [mb|]; cbn [has_value both].
  - coll. rewrite Forall_map, <- sizes_entries by assumption.
    rewrite (Forall_iff_ _ (fun kv => exists w, mfind Nat.eqb (fst kv) mb = Some w /\ snd kv = w)); [tauto|].
    intros [k v] _. rewrite map_at_silent. cbn [fst snd]. split; intros (w & E & S); exists w; split; auto.
    + rewrite silent_ok, eq_enum_n in S. auto.
    + rewrite silent_ok, eq_enum_n. auto.
  - split; [intros [E _]; discriminate|tauto].
  - split; [intros [E _]; discriminate|tauto].
  - rewrite Forall_nil_iff_. tauto.
Qed.
Lemma eq_dvalue_map_s a b : is_map a -> is_map b -> (silent (eq_dvalue_map a b) <-> same_map (fun v w => dv_value v = dv_value w) a b).
Proof.
  intros A B. unfold eq_dvalue_map. coll. rewrite Forall_map, <- sizes_entries by assumption.
  rewrite (Forall_iff_ _ (fun kv => exists w, mfind Nat.eqb (fst kv) b = Some w /\ dv_value (snd kv) = dv_value w)); [tauto|].
  intros [k v] _. rewrite map_at_silent. cbn [fst snd]. split; intros (w & E & S); exists w; split; auto.
  - rewrite silent_ok, eq_dvalue_n in S. auto.
  - rewrite silent_ok, eq_dvalue_n. auto.
Qed.
Lemma eq_phase_s a b : phase_maps a -> phase_maps b -> (silent (eq_phase a b) <-> alike_phase a b).
Proof.
  intros (A1 & A2 & A3) (B1 & B2 & B3). unfold eq_phase, alike_phase, eq_rule_states. coll. coll.
  rewrite eq_dvalue_map_s, eq_bulb_states_s by assumption. tauto.
Qed.
Lemma dvalue_map_throws a b : eq_dvalue_map a b = Throw <-> exists k, In k (map fst a) /\ ~ In k (map fst b).
Proof.
  unfold eq_dvalue_map. rewrite collect_throw. split.
  - intros (l1 & l2 & E & _).
    assert (In Throw (map (fun kv => map_at (fst kv) b (fun v => Ok (eq_dvalue v (snd kv)))) a)) as H.
    { destruct l1 as [|x l1]; cbn [app] in E; [discriminate|]. injection E as _ E. rewrite E. apply in_elt. }
    apply in_map_iff in H as ([k v] & T & I). exists k. split; [apply in_map_iff; exists (k, v); auto|].
    unfold map_at in T. cbn [fst snd] in T. destruct (mfind Nat.eqb k b) eqn:F; [discriminate|]. apply mfind_no; auto.
  - intros (k & I & N). apply mfind_no in N.
    assert (H : exists l1 l2, map (fun kv => map_at (fst kv) b (fun v => Ok (eq_dvalue v (snd kv)))) a = l1 ++ Throw :: l2 /\ Forall returns l1).
    { revert I. induction a as [|[k' v] a IH]; cbn [map fst snd In]; [tauto|]. intro I.
      destruct (map_at k' b (fun v0 => Ok (eq_dvalue v0 v))) as [x| |] eqn:M.
      - destruct I as [-> |I]; [unfold map_at in M; rewrite N in M; discriminate|].
        destruct (IH I) as (l1 & l2 & E & F). exists (Ok x :: l1), l2. rewrite E. split; auto. constructor; auto. apply returns_ok; auto.
      - exists [], (map (fun kv => map_at (fst kv) b (fun v0 => Ok (eq_dvalue v0 (snd kv)))) a). auto.
      - unfold map_at in M. destruct (mfind Nat.eqb k' b); discriminate. }
    destruct H as (l1 & l2 & E & F). exists (Ok (eq_size (length a) (length b)) :: l1), l2. rewrite E. split; auto.
    constructor; auto. apply returns_ok; auto.
Qed.

(** ** Vectors of discrete values *)
Definition plain (v : dvalue) : Prop := related_rules (dv_state v) = [] /\ related_ids (dv_state v) = [].
Lemma plain_eqb a b : plain a -> plain b -> (dvalue_eqb a b = true <-> a = b).
Proof.
  intros [A1 A2] [B1 B2]. unfold dvalue_eqb, state_eqb. rewrite A1, A2, B1, B2. cbn [compare_groups length Nat.eqb forallb andb].
  rewrite andb_true_iff, str_eqb_ok, Z.eqb_eq. split.
  - destruct a as [[sa ra ia] va], b as [[sb rb ib] vb]; cbn in *. intros [-> ->]. congruence.
  - intros ->. auto.
Qed.
Lemma eq_dvalue_vector_s a b :
  silent (eq_dvalue_vector a b) <-> length a = length b /\ forall x, In x a -> exists y, In y b /\ dvalue_eqb y x = true.
Proof.
  unfold eq_dvalue_vector. coll. split; intros [L H]; split; auto.
  - rewrite <- L, Nat.min_id, firstn_all, Forall_map, Forall_forall in H. intros x I. specialize (H x I).
    rewrite silent_ok, eq_bool_n, existsb_exists in H. exact H.
  - rewrite <- L, Nat.min_id, firstn_all, Forall_map, Forall_forall. intros x I. rewrite silent_ok, eq_bool_n, existsb_exists. auto.
Qed.
Lemma eq_dvalue_vector_plain a b : Forall plain a -> Forall plain b -> NoDup a -> NoDup b ->
  (silent (eq_dvalue_vector a b) <-> Permutation a b).
Proof.
  rewrite !Forall_forall. intros A B NA NB. rewrite eq_dvalue_vector_s. split.
  - intros [L H]. apply NoDup_Permutation_bis; auto; [lia|]. intros x I. destruct (H x I) as (y & J & E). apply plain_eqb in E; auto. subst; auto.
  - intro P. split; [apply Permutation_length, P|]. intros x I. exists x. split; [eapply Permutation_in; eauto|].
    apply plain_eqb; auto.
Qed.
Lemma eq_dvalue_vector_returns a b : returns (eq_dvalue_vector a b).
Proof.
  unfold eq_dvalue_vector. collr. split; auto. apply Forall_map, Forall_forall. intros x _. apply returns_ok; auto.
Qed.

(** ** Ranges *)
Definition proper_range (r : range) : Prop := range_doubles r /\ map_state (rv_state r).
Lemma eq_range_vector_s a b : Forall proper_range a -> Forall proper_range b ->
  (silent (eq_range_vector a b) <-> Forall2 range_sub a b).
Proof.
  rewrite !Forall_forall. intros A B. unfold eq_range_vector. rewrite eq_vector_silent. apply Forall2_iff. intros x y I J.
  destruct (A x I) as [A1 A2], (B y J) as [B1 B2]. rewrite silent_ok. unfold eq_range. rewrite unless_true. apply range_eqb_sub; auto.
Qed.

(** ** Traffic lights *)
Lemma vec3_eqb_s a b : vec3_eqb Q Qeq_bool a b = true <-> same3 a b.
Proof.
  destruct a as [[x y] z], b as [[u v] w]. unfold vec3_eqb, c1, c2, c3, same3. cbn [fst snd].
  rewrite !andb_true_iff, !Qeq_bool_iff. tauto.
Qed.
Lemma eq_inertial_s a b : eq_inertial Q Qeq_bool a b = None <-> same3 a b.
Proof. unfold eq_inertial. rewrite unless_true. apply vec3_eqb_s. Qed.
Lemma eq_rotation_s a b : eq_rotation Q Qeq_bool a b = None <-> same9 a b.
Proof.
  unfold eq_rotation. destruct a as [[x y] z], b as [[u v] w]. cbn [fst snd]. rewrite unless_true, !andb_true_iff, !vec3_eqb_s.
  unfold same9. tauto.
Qed.
Lemma eq_box_s a b : silent (eq_box Q far_q eps_q a b) <->
  near3 (1 # 4503599627370496) (cb_min _ a) (cb_min _ b) /\ near3 (1 # 4503599627370496) (cb_max _ a) (cb_max _ b).
Proof.
  unfold eq_box. coll. unfold c1, c2, c3, near3, same_d. destruct (cb_min Q a) as [[? ?] ?], (cb_min Q b) as [[? ?] ?],
    (cb_max Q a) as [[? ?] ?], (cb_max Q b) as [[? ?] ?]. cbn [fst snd]. tauto.
Qed.
Lemma eq_bulb_s a b : silent (qeq_bulb a b) <-> same_bulb a b.
Proof.
  unfold qeq_bulb, eq_bulb, same_bulb. coll. rewrite eq_inertial_s, eq_rotation_s, eq_opt_s, eq_box_s, Forall_map.
  assert (E : length (cb_states Q a) = length (cb_states Q b) /\
     Forall (fun x => silent (Ok (eq_enum (fst x) (snd x)))) (combine (cb_states Q a) (cb_states Q b)) <-> cb_states Q a = cb_states Q b).
  { rewrite <- Forall2_eq. split.
    - intros [L H]. apply (combine_forall2 eq); auto. revert H. apply Forall_impl. intros p. rewrite silent_ok, eq_enum_n. auto.
    - intro H. pose proof (Forall2_len _ _ _ H) as L. split; auto. apply (combine_forall2 eq _ _ L) in H. revert H.
      apply Forall_impl. intros p. rewrite silent_ok, eq_enum_n. auto. }
  tauto.
Qed.
Lemma eq_group_s a b : silent (qeq_group a b) <-> same_group a b.
Proof.
  unfold qeq_group, eq_group, same_group. coll. rewrite eq_inertial_s, eq_rotation_s, eq_vector_silent.
  rewrite (Forall2_iff _ _ _ _ (fun x y _ _ => eq_bulb_s x y)). tauto.
Qed.
Lemma eq_light_s a b : silent (qeq_light a b) <-> same_light a b.
Proof.
  unfold qeq_light, eq_light, same_light. coll. rewrite eq_inertial_s, eq_rotation_s, Forall_map.
  assert (E : length (ct_groups Q a) = length (ct_groups Q b) /\
     Forall (fun x => silent (qeq_group (fst x) (snd x))) (combine (ct_groups Q a) (ct_groups Q b)) <-> Forall2 same_group (ct_groups Q a) (ct_groups Q b)).
  { rewrite <- (Forall2_iff _ _ _ _ (fun x y _ _ => eq_group_s x y)). split.
    - intros [L H]. apply (combine_forall2 (fun x y => silent (qeq_group x y))); auto.
    - intro H. pose proof (Forall2_len _ _ _ H) as L. split; auto. apply (combine_forall2 (fun x y => silent (qeq_group x y)) _ _ L). auto. }
  unfold qeq_group in E. tauto.
Qed.

(** ** Closeness *)
Lemma close3_s t a b : qclose3 a b t = None <-> near3 t a b.
Proof.
  unfold qclose3, close3, near3, c1, c2, c3. destruct a as [[x y] z], b as [[u v] w]. cbn [fst snd]. rewrite unless_true, negb_true_iff.
  rewrite <- !far_near. destruct (far_q t x u), (far_q t y v), (far_q t z w); intuition congruence.
Qed.
Lemma close2_s t a b : qclose2 a b t = None <-> near2 t a b.
Proof.
  unfold qclose2, close2, near2. rewrite unless_true, negb_true_iff. rewrite <- !far_near.
  destruct (far_q t (fst a) (fst b)), (far_q t (snd a) (snd b)); intuition congruence.
Qed.
Lemma far_unless t x y : unless_same (negb (far_q t x y)) = None <-> near t x y.
Proof. rewrite unless_true, negb_true_iff. apply far_near. Qed.
Lemma lane_result_s t a b : qlane_result_close a b t = None <-> near_lane_result t a b.
Proof.
  unfold qlane_result_close, lane_result_close, near_lane_result.
  pose proof (close3_s t (lr_pos Q a) (lr_pos Q b)) as E1. pose proof (close3_s t (lr_nearest Q a) (lr_nearest Q b)) as E2.
  unfold qclose3 in *. rewrite <- E1, <- E2, <- far_unless.
  destruct (close3 Q far_q (lr_pos Q a) (lr_pos Q b) t), (close3 Q far_q (lr_nearest Q a) (lr_nearest Q b) t); intuition congruence.
Qed.
Lemma road_result_s t a b : qroad_result_close a b t = None <-> near_road_result t a b.
Proof.
  unfold qroad_result_close, road_result_close, near_road_result. pose proof (lane_result_s t (rr_result Q a) (rr_result Q b)) as E.
  destruct (rr_lane Q a) as [x|], (rr_lane Q b) as [y|]; try (split; [discriminate|]; intros ((l & H1 & H2) & _); congruence).
  destruct (Nat.eqb_spec x y) as [->|N]; cbn [negb].
  - unfold qlane_result_close in E. rewrite E. split; [intro H; split; eauto|tauto].
  - split; [discriminate|]. intros ((l & H1 & H2) & _). congruence.
Qed.
Lemma phase_result_s t a b : qphase_result_close a b t = None <-> near_phase_result t a b.
Proof.
  unfold qphase_result_close, phase_result_close, near_phase_result.
  pose proof (close3_s t (pr_pos Q a) (pr_pos Q b)) as E1. pose proof (close3_s t (pr_inertial Q a) (pr_inertial Q b)) as E2.
  unfold qclose3 in *. rewrite <- E1, <- E2, <- far_unless.
  destruct (Z.eqb_spec (pr_index Q a) (pr_index Q b)); cbn [negb]; [|intuition congruence].
  destruct (close3 Q far_q (pr_pos Q a) (pr_pos Q b) t), (close3 Q far_q (pr_inertial Q a) (pr_inertial Q b) t); intuition congruence.
Qed.
Lemma route_result_s t a b : qroute_result_close a b t = None <-> near_route_result t a b.
Proof.
  unfold qroute_result_close, route_result_close, near_route_result. pose proof (phase_result_s t (ro_result Q a) (ro_result Q b)) as E.
  unfold qphase_result_close in E. destruct (Z.eqb_spec (ro_phase Q a) (ro_phase Q b)); cbn [negb]; [rewrite E; tauto|intuition congruence].
Qed.

(** ** Id indexing *)
Lemma node_checks_s get l : Forall silent (map (node_check get) l) <-> indexes get l.
Proof.
  unfold indexes. rewrite Forall_map, Forall_forall. split; intros H n I; specialize (H n I);
    unfold node_check in *; rewrite silent_ok, eq_ptr_n in *; auto.
Qed.
Definition all_segments (g : croad) : list csegment := flat_map jn_segments (rd_junctions g).
Lemma check_s g : silent (CheckIdIndexing g) <->
  indexes (get_junction g) (map jn_node (rd_junctions g)) /\
  indexes (get_segment g) (map sg_node (all_segments g)) /\
  indexes (get_lane g) (flat_map sg_lanes (all_segments g)) /\
  (rd_junctions g <> [] -> indexes (get_bp g) (rd_bps g)).
Proof.
  unfold CheckIdIndexing, all_segments. rewrite collect_silent, Forall_flat_map.
  assert (E : forall l, Forall silent (flat_map (fun s => node_check (get_segment g) (sg_node s) :: map (node_check (get_lane g)) (sg_lanes s)) l) <->
     indexes (get_segment g) (map sg_node l) /\ indexes (get_lane g) (flat_map sg_lanes l)).
  { intro l. rewrite <- !node_checks_s. rewrite !Forall_map, !Forall_flat_map, !Forall_forall. split.
    - intro H. split; intros x I; specialize (H x I).
      + inversion H; auto.
      + rewrite Forall_forall. intros n J. inversion H; subst. rewrite Forall_map, Forall_forall in H3. auto.
    - intros [H1 H2] x I. constructor; auto. specialize (H2 x I). rewrite Forall_map. auto. }
  induction (rd_junctions g) as [|j l IH].
  - cbn. unfold indexes. cbn. split; auto. intros _. repeat split; try tauto.
  - cbn [map flat_map]. rewrite Forall_cons_iff_, IH. rewrite Forall_cons_iff_, Forall_app, E, node_checks_s.
    unfold node_check. rewrite silent_ok, eq_ptr_n. unfold indexes in *. rewrite map_app, flat_map_app. cbn [In].
    split.
    + intros ((H1 & (H2 & H3) & H4) & H5 & H6 & H7 & H8). repeat split.
      * intros n [<-|I]; auto.
      * intros n I. apply in_app_or in I as [I|I]; auto.
      * intros n I. apply in_app_or in I as [I|I]; auto.
      * auto.
    + intros (H1 & H2 & H3 & H4). split; [split; [|split; [split|]]|split; [|split; [|split]]].
      * apply H1. auto.
      * intros n I. apply H2, in_or_app. auto.
      * intros n I. apply H3, in_or_app. auto.
      * apply H4. discriminate.
      * intros n I. apply H1. auto.
      * intros n I. apply H2, in_or_app. auto.
      * intros n I. apply H3, in_or_app. auto.
      * intros _. apply H4. discriminate.
Qed.
