(** Lemmas for the loaders of rules: related things, values of rules, zones. *)
From Coq Require Import String List Bool Arith ZArith Lia.
From Verif Require Import Base Maps Loaders_Model Loaders_Spec Loaders_Proofs Loaders_Proofs2 Loaders_Proofs5 RuleLoaders_Model RuleLoaders_Spec.
Import ListNotations.
Local Open Scope string_scope.

Ltac steps H :=
  repeat match type of H with
  | obind _ _ = Ok _ => rewrite obind_ok in H; let x := fresh "x" in let E := fresh "E" in destruct H as (x & E & H)
  | throw_unless _ _ = Ok _ => rewrite throw_unless_ok in H; let E := fresh "C" in destruct H as [E H]
  end.
(** Evaluate a loader whose steps are known. *)
Ltac run := repeat (match goal with H : ?e = Ok _ |- context [?e] => rewrite H | H : ?e = true |- context [?e] => rewrite H | H : ?e = false |- context [?e] => rewrite H end; cbn [obind throw_unless]).

(** ** Groups *)
Lemma push_present : forall f k id ks, NoDup ks -> In k ks ->
  push_to k id (map (fun k => (k, f k)) ks) = map (fun k' => (k', if k' =? k then (f k' ++ [id])%list else f k')) ks.
Proof.
  intros f k id ks N. induction ks as [|a ks IH]; intro I; [destruct I|]. inversion N; subst. cbn [map push_to].
  destruct (String.eqb_spec k a) as [<-|Na].
  - rewrite String.eqb_refl. f_equal. apply map_ext_in. intros x Ix. destruct (String.eqb_spec x k) as [->|]; [contradiction|auto].
  - destruct I as [->|I]; [congruence|]. destruct (String.eqb_spec a k) as [->|_]; [congruence|]. f_equal. apply IH; auto.
Qed.
Lemma push_absent : forall f k id ks, ~ In k ks -> push_to k id (map (fun k => (k, f k)) ks) = (map (fun k => (k, f k)) ks ++ [(k, [id])])%list.
Proof.
  intros f k id ks. induction ks as [|a ks IH]; intro I; [auto|]. cbn [map push_to]. destruct (String.eqb_spec k a) as [->|_]; [destruct I; left; auto|].
  cbn [app]. f_equal. apply IH. intro J. apply I. right. exact J.
Qed.
Lemma grouped_push : forall ms k id, push_to k id (grouped ms) = grouped (ms ++ [(k, id)]).
Proof.
  intros ms k id. unfold grouped. rewrite map_app, rev_app_distr. cbn [map rev app fst nodup].
  destruct (in_dec string_dec k (rev (map fst ms))) as [I|I].
  - rewrite push_present.
    + apply map_ext. intro k'. f_equal. rewrite filter_app, map_app. cbn [filter map fst snd]. rewrite (String.eqb_sym k k'). destruct (k' =? k); cbn [map snd]; [auto|]. rewrite app_nil_r. reflexivity.
    + apply NoDup_rev, NoDup_nodup.
    + rewrite <- in_rev, nodup_In. exact I.
  - cbn [rev]. rewrite push_absent by (rewrite <- in_rev, nodup_In; exact I). rewrite map_app. f_equal.
    + apply map_ext_in. intros x Ix. rewrite <- in_rev, nodup_In in Ix. f_equal. rewrite filter_app, map_app. cbn [filter map fst snd].
      destruct (String.eqb_spec k x) as [->|_]; [contradiction|]. cbn [map]. rewrite app_nil_r. reflexivity.
    + cbn [map]. do 2 f_equal. rewrite filter_app, map_app. cbn [filter map fst snd]. rewrite String.eqb_refl. cbn [map snd].
      replace (filter (fun m => fst m =? k) ms) with (@nil (string * string)); [auto|].
      rewrite <- in_rev in I. clear id. induction ms as [|[a b] ms IH]; [auto|]. cbn [filter fst map In] in *. destruct (String.eqb_spec a k) as [->|_]; [destruct I; auto|]. apply IH. tauto.
Qed.
Lemma grouped_keys : forall ms, NoDup (map fst (grouped ms)).
Proof. intro ms. unfold grouped. rewrite map_map. cbn [fst]. rewrite map_id. apply NoDup_rev, NoDup_nodup. Qed.
Definition push_all (ms : list (string * string)) (g : groups) : groups := fold_left (fun g m => push_to (fst m) (snd m) g) ms g.
Lemma push_all_grouped : forall ms ms', push_all ms (grouped ms') = grouped (ms' ++ ms).
Proof.
  intro ms. induction ms as [|[k id] ms IH]; intro ms'; cbn; [rewrite app_nil_r; auto|]. rewrite grouped_push. unfold push_all in IH. rewrite IH, <- app_assoc. reflexivity.
Qed.
Lemma push_all_app : forall a b g, push_all (a ++ b) g = push_all b (push_all a g).
Proof. intros. apply fold_left_app. Qed.

Lemma count_one : forall l, forallb (fun x => Nat.eqb (count_in x l) 1) l = true <-> NoDup l.
Proof.
  intro l. rewrite forallb_forall. split.
  - intro H. apply (NoDup_count_occ' string_dec). intros x I. specialize (H x I). apply Nat.eqb_eq in H. rewrite <- H. unfold count_in.
    clear H I. induction l as [|a l IH]; cbn; [auto|]. destruct (string_dec a x) as [->|N]; [rewrite String.eqb_refl; cbn; f_equal; apply IH|]. destruct (String.eqb_spec x a); [congruence|]. apply IH.
  - intros N x I. apply Nat.eqb_eq. pose proof (proj1 (NoDup_count_occ' string_dec l) N x I) as H. rewrite <- H. unfold count_in.
    clear H N I. induction l as [|a l IH]; cbn; [auto|]. destruct (string_dec a x) as [->|N]; [rewrite String.eqb_refl; cbn; f_equal; apply IH|]. destruct (String.eqb_spec x a); [congruence|]. apply IH.
Qed.
Lemma groups_ok_iff : forall g, groups_ok g = true <-> good_groups g.
Proof.
  intro g. unfold groups_ok, good_groups. rewrite forallb_forall. split.
  - intros H k ids I. specialize (H _ I). cbn [fst snd] in H. apply andb_true_iff in H. destruct H as [A B]. rewrite count_one in B. rewrite negb_true_iff, String.eqb_neq in A. auto.
  - intros H [k ids] I. destruct (H _ _ I) as [A B]. cbn [fst snd]. rewrite andb_true_iff, count_one, negb_true_iff, String.eqb_neq. auto.
Qed.
Lemma compare_iff : forall a b, NoDup (map fst b) -> compare_groups a b = true <-> within a b.
Proof.
  intros a b N. unfold compare_groups, within. rewrite andb_true_iff, Nat.eqb_eq, forallb_forall.
  assert (Q : forall k ids, match mfind String.eqb k b with Some ids' => forallb (fun x => existsb (String.eqb x) ids') ids | None => false end = true <-> exists ids', In (k, ids') b /\ incl ids ids').
  { intros k ids. split.
    - intro H. destruct (mfind String.eqb k b) as [ids'|] eqn:F; [|discriminate]. exists ids'. split; [apply (mfind_in _ seqb_ok); exact F|]. intros x Ix. rewrite forallb_forall in H. specialize (H x Ix).
      apply existsb_exists in H. destruct H as (y & Iy & E). apply String.eqb_eq in E. subst y. exact Iy.
    - intros (ids' & I & H). rewrite (mfind_nodup _ seqb_ok _ _ _ N I). apply forallb_forall. intros x Ix. apply existsb_exists. exists x. rewrite String.eqb_refl. auto. }
  split; intros [L H]; split; auto.
  - intros k ids I. apply Q. exact (H (k, ids) I).
  - intros [k ids] I. apply Q. apply H. exact I.
Qed.
Lemma within_refl : forall a, within a a.
Proof. intro a. split; auto. intros k ids I. exists ids. split; auto. apply incl_refl. Qed.

(** ** Values of rules *)
Definition dkeys (v : dval) : Prop := NoDup (map fst (dv_rules v)) /\ NoDup (map fst (dv_ids v)).
Lemma dval_eqb_iff : forall v w, dkeys w -> dval_eqb v w = true <-> alike v w.
Proof.
  intros v w [N1 N2]. unfold dval_eqb, alike. rewrite !andb_true_iff, String.eqb_eq, Z.eqb_eq, !compare_iff by auto. tauto.
Qed.
Lemma alike_refl : forall v, alike v v.
Proof. intro v. unfold alike. pose proof (within_refl (dv_rules v)). pose proof (within_refl (dv_ids v)). tauto. Qed.
(** Every value is equal to one of the list, itself. *)
Lemma ones_pairs {A} : forall (P : A -> A -> Prop) (eqb : A -> A -> bool) l,
  (forall v w, In v l -> In w l -> (eqb v w = true <-> P v w)) -> (forall v, In v l -> P v v) ->
  (forall v, In v l -> length (filter (fun w => eqb w v) l) = 1) <-> ForallOrdPairs (fun v w => ~ P v w /\ ~ P w v) l.
Proof.
  intros P eqb l. induction l as [|a l IH]; intros R Rf; [split; [constructor|intros _ v []]|].
  assert (IH' : (forall v, In v l -> length (filter (fun w => eqb w v) l) = 1) <-> ForallOrdPairs (fun v w => ~ P v w /\ ~ P w v) l).
  { apply IH; [intros v w Iv Iw; apply R; right; auto|intros v Iv; apply Rf; right; auto]. }
  assert (Ra : eqb a a = true) by (apply R; [left; auto|left; auto|apply Rf; left; auto]).
  assert (L : forall x m, (forall w, In w m -> eqb w x = false) -> filter (fun w => eqb w x) m = []).
  { intros x m. induction m as [|b m IHm]; intro H; [auto|]. cbn. rewrite (H b (or_introl eq_refl)). apply IHm. intros w I. apply H. right. exact I. }
  split.
  - intro H. constructor.
    + apply Forall_forall. intros w Iw.
      assert (Fa : forall w, In w l -> eqb w a = false).
      { intros u Iu. specialize (H a (or_introl eq_refl)). cbn in H. rewrite Ra in H. cbn in H. destruct (eqb u a) eqn:E; [|auto].
        assert (In u (filter (fun w => eqb w a) l)) by (apply filter_In; auto). destruct (filter (fun w => eqb w a) l); [contradiction|cbn in H; lia]. }
      assert (Fw : eqb a w = false).
      { pose proof (H w (or_intror Iw)) as G. cbn in G. destruct (eqb a w) eqn:E; [|auto]. cbn in G.
        assert (In w (filter (fun u => eqb u w) l)) by (apply filter_In; split; [auto|apply R; [right; auto|right; auto|apply Rf; right; auto]]).
        destruct (filter (fun u => eqb u w) l); [contradiction|cbn in G; lia]. }
      split; intro Q; apply R in Q; [congruence|left; auto|right; auto|rewrite (Fa w Iw) in Q; discriminate|right; auto|left; auto].
    + apply IH'. intros v Iv. pose proof (H v (or_intror Iv)) as G. cbn in G. destruct (eqb a v) eqn:E; [|exact G]. cbn in G.
      assert (In v (filter (fun u => eqb u v) l)) by (apply filter_In; split; [auto|apply R; [right; auto|right; auto|apply Rf; right; auto]]).
      destruct (filter (fun u => eqb u v) l); [contradiction|cbn in G; lia].
  - intro H. inversion H as [|x m Fa Fo]; subst. rewrite Forall_forall in Fa. intros v [<-|Iv].
    + cbn. rewrite Ra. cbn. f_equal. rewrite L; auto. intros w Iw. destruct (Fa w Iw) as [_ B]. destruct (eqb w a) eqn:E; [|auto]. apply R in E; [contradiction|right; auto|left; auto].
    + cbn. destruct (Fa v Iv) as [B _]. destruct (eqb a v) eqn:E; [apply R in E; [contradiction|left; auto|right; auto]|]. apply IH'; auto.
Qed.
Lemma DiscreteValueRule_ok {D} : forall id type (zone : list (lane_range (D := D))) vs r, Forall dkeys vs ->
  DiscreteValueRule id type zone vs = Ok r <-> good_values vs /\ r = mk_drule id type zone vs.
Proof.
  intros id type zone vs r K. unfold DiscreteValueRule, good_values. rewrite !throw_unless_ok, negb_true_iff, Nat.eqb_neq, forallb_forall.
  rewrite Forall_forall in K.
  rewrite <- (ones_pairs alike dval_eqb vs (fun v w _ I => dval_eqb_iff v w (K w I)) (fun v _ => alike_refl v)), Forall_forall.
  assert (Q : forall v, groups_ok (dv_rules v) && groups_ok (dv_ids v) && (0 <=? dv_severity v)%Z && Nat.eqb (length (filter (fun w => dval_eqb w v) vs)) 1 = true <->
                (good_groups (dv_rules v) /\ good_groups (dv_ids v) /\ (0 <= dv_severity v)%Z) /\ length (filter (fun w => dval_eqb w v) vs) = 1).
  { intro v. rewrite !andb_true_iff, !groups_ok_iff, Z.leb_le, Nat.eqb_eq. tauto. }
  split.
  - intros (N & F & E). injection E as <-. split; [|auto]. split; [intros ->; apply N; auto|]. split; intros v I; apply (F v) in I; apply Q in I; tauto.
  - intros [(N & A & B) ->]. split; [destruct vs; [congruence|discriminate]|]. split; [|auto]. intros v I. apply Q. auto.
Qed.
Section Rules.
Context {D : Type}.
Variables (to_double : string -> option D) (to_int : string -> option Z) (null_text : option string) (Dleb Deqb : D -> D -> bool) (zero : D).
Variable lane_length : string -> option D.
Hypothesis zero_le : Dleb zero zero = true.
Hypothesis le_number : forall x y, Dleb x y = true -> Deqb x x = true /\ Deqb y y = true.
Hypothesis eq_same : forall x y, Deqb x y = true -> x = y.

Definition rkeys (v : rval (D := D)) : Prop := NoDup (map fst (rv_rules v)) /\ NoDup (map fst (rv_ids v)).
Lemma rval_eqb_iff : forall v w, rkeys w -> Dleb (rv_min w) (rv_max w) = true -> rval_eqb Deqb v w = true <-> ralike v w.
Proof.
  intros v w [N1 N2] L. destruct (le_number _ _ L) as [L1 L2]. unfold rval_eqb, ralike. rewrite !andb_true_iff, String.eqb_eq, Z.eqb_eq, !compare_iff by auto.
  split.
  - intros ((((H1 & H2) & H3) & H4) & H5). apply eq_same in H4. apply eq_same in H5. tauto.
  - intros (H1 & H2 & H3 & H4 & H5 & H6). rewrite H2, H3. tauto.
Qed.
Lemma ralike_refl : forall v : rval (D := D), ralike v v.
Proof. intro v. unfold ralike. pose proof (within_refl (rv_rules v)). pose proof (within_refl (rv_ids v)). tauto. Qed.
Lemma RangeValueRule_ok : forall id type (zone : list (lane_range (D := D))) vs r, Forall rkeys vs ->
  Forall (fun v => Dleb (rv_min v) (rv_max v) = true) vs ->
  RangeValueRule Dleb Deqb id type zone vs = Ok r <-> good_ranges Dleb vs /\ r = mk_rrule id type zone vs.
Proof.
  intros id type zone vs r K L. unfold RangeValueRule, good_ranges. rewrite !throw_unless_ok, negb_true_iff, Nat.eqb_neq, forallb_forall.
  rewrite Forall_forall in K, L.
  rewrite <- (ones_pairs ralike (rval_eqb Deqb) vs (fun v w _ I => rval_eqb_iff v w (K w I) (L w I)) (fun v _ => ralike_refl v)), Forall_forall.
  assert (Q : forall v, groups_ok (rv_rules v) && groups_ok (rv_ids v) && (0 <=? rv_severity v)%Z && Dleb (rv_min v) (rv_max v) && Nat.eqb (length (filter (fun w => rval_eqb Deqb w v) vs)) 1 = true <->
                (good_groups (rv_rules v) /\ good_groups (rv_ids v) /\ (0 <= rv_severity v)%Z /\ Dleb (rv_min v) (rv_max v) = true) /\ length (filter (fun w => rval_eqb Deqb w v) vs) = 1).
  { intro v. rewrite !andb_true_iff, !groups_ok_iff, Z.leb_le, Nat.eqb_eq. tauto. }
  split.
  - intros (N & F & E). injection E as <-. split; [|auto]. split; [intros ->; apply N; auto|]. split; intros v I; apply (F v) in I; apply Q in I; tauto.
  - intros [(N & A & B) ->]. split; [destruct vs; [congruence|discriminate]|]. split; [|auto]. intros v I. apply Q. auto.
Qed.

(** ** Zones *)
Notation denotes_range := (denotes_range to_double null_text Dleb zero lane_length).
Notation denotes_zone := (denotes_zone to_double null_text Dleb zero lane_length).
Lemma GetLaneSRange_ok : forall klane krange n r, GetLaneSRange to_double null_text Dleb zero lane_length klane krange n = Ok r <-> denotes_range klane krange n r.
Proof.
  intros klane krange n r. split.
  - intro H. unfold GetLaneSRange in H. steps H. injection H as <-. rewrite is_map_iff in C. split; [apply ident_need; eauto|]. cbn [lr_lane lr_s0 lr_s1].
    rewrite conv_ok in E1. exists x1. split; [exact E1|]. unfold GetSRange in E2. steps E2. destruct (is_defined x3) eqn:Df.
    + right. steps E2. injection E2 as <-. unfold as_srange in E4. destruct x3 as [| | |[|a [|b [|]]]|]; try discriminate. steps E4. injection E4 as <-. cbn [fst snd] in *.
      exists a, b. split; [apply get_entry; [discriminate|exact E3]|]. rewrite <- !as_double_ok. auto 6.
    + left. unfold make_srange in E2. steps E2. injection E2 as <-. split; [|auto]. destruct x3; try discriminate. apply get_absent. exact E3.
  - intros (Hid & len & L & H). apply ident_need in Hid. destruct Hid as (ln & E1 & E2).
    assert (M : is_map n = true) by (apply is_map_iff; apply need_ok in E1; exact (entry_map _ _ _ E1)).
    unfold GetLaneSRange. run. rewrite L. cbn [conv obind]. unfold GetSRange.
    destruct H as [(A & H0 & H1 & P)|(a & b & E & Na & Nb & P0 & P1 & P2)].
    + assert (G : get n krange = Ok Undefined) by (apply absent_undefined; [apply is_map_iff; exact M|exact A]). rewrite G. cbn [obind is_defined]. unfold make_srange.
      rewrite zero_le, P. cbn. destruct r; cbn in *; subst; reflexivity.
    + apply get_entry in E; [|discriminate]. rewrite <- (as_double_ok to_double) in Na, Nb. rewrite E. cbn [obind is_defined as_srange]. run. cbn [fst snd]. run. destruct r; reflexivity.
Qed.
Lemma GetZone_ok : forall klane krange n z, GetZone to_double null_text Dleb zero lane_length klane krange n = Ok z <-> exists l, n = Seq l /\ Forall2 (denotes_range klane krange) l z.
Proof.
  intros klane krange n z. unfold GetZone. rewrite throw_unless_ok, is_seq_iff, each_ok_ok. split.
  - intros [E F]. exists (elements n). split; auto. revert F. apply Forall2_iff. intros x y. symmetry. apply GetLaneSRange_ok.
  - intros (l & -> & F). split; auto. revert F. apply Forall2_iff. intros x y. apply GetLaneSRange_ok.
Qed.
Lemma zone_need : forall klane krange n k z, (exists m, need n k = Ok m /\ GetZone to_double null_text Dleb zero lane_length klane krange m = Ok z) <-> denotes_zone klane krange n k z.
Proof.
  intros klane krange n k z. unfold RuleLoaders_Spec.denotes_zone. split.
  - intros (m & E & F). rewrite GetZone_ok in F. destruct F as (l & -> & F). rewrite need_ok in E. eauto.
  - intros (l & E & F). exists (Seq l). rewrite need_ok, GetZone_ok. eauto.
Qed.
End Rules.
