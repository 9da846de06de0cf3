(** Lemmas for the loader of rules of registered types. *)
From Coq Require Import String List Bool Arith ZArith Lia.
From Verif Require Import Base Maps Loaders_Model Loaders_Spec Loaders_Proofs Loaders_Proofs2 Loaders_Proofs5 RuleLoaders_Model RuleLoaders_Spec RuleLoaders_Proofs.
Import ListNotations.
Local Open Scope string_scope.

Lemma NoDup_app_last {A} : forall (l : list A) a, NoDup l -> ~ In a l -> NoDup (l ++ [a]).
Proof. intros l a N I. apply NoDup_rev in N. rewrite <- (rev_involutive (l ++ [a])), rev_app_distr. apply NoDup_rev. constructor; [rewrite <- in_rev; exact I|exact N]. Qed.
(** ** Probing the shape of values *)
Lemma map_no_entry : forall n k, ~ a_map n -> absent n k.
Proof. intros n k N v E. apply N. exact (entry_map _ _ _ E). Qed.
Lemma IsDiscreteValue_iff : forall n b, tidy_map n -> IsDiscreteValue n = Ok b <-> looked_into n /\ (b = true <-> discrete_shape n).
Proof.
  intros n b T. unfold looked_into. destruct n as [| |s|l|l].
  - split; [discriminate|]. intros [[(l & H)|[H|(l & H)]] _]; discriminate.
  - split.
    + intros [= <-]. split; [auto|]. split; [discriminate|]. intros [(v & E) _]. destruct (entry_map _ _ _ E); discriminate.
    + intros [_ H]. cbn. destruct b; [|auto]. destruct (proj1 H eq_refl) as [(v & E) _]. destruct (entry_map _ _ _ E); discriminate.
  - split; [discriminate|]. intros [[(l & H)|[H|(l & H)]] _]; discriminate.
  - split.
    + intros [= <-]. split; [eauto|]. split; [discriminate|]. intros [(v & E) _]. destruct (entry_map _ _ _ E); discriminate.
    + intros [_ H]. cbn. destruct b; [|auto]. destruct (proj1 H eq_refl) as [(v & E) _]. destruct (entry_map _ _ _ E); discriminate.
  - destruct (IsDiscreteValue_ok (fun _ => @None unit) (fun _ => None) l T) as (b' & E & H). rewrite E. split.
    + intros [= <-]. split; [left; exists l; auto|exact H].
    + intros [_ G]. f_equal. destruct b, b'; tauto || (exfalso; intuition congruence).
Qed.
Lemma IsRangeValue_iff : forall n b, tidy_map n -> IsRangeValue n = Ok b <-> looked_into n /\ (b = true <-> range_shape n).
Proof.
  intros n b T. unfold looked_into. destruct n as [| |s|l|l].
  - split; [discriminate|]. intros [[(l & H)|[H|(l & H)]] _]; discriminate.
  - split.
    + intros [= <-]. split; [auto|]. split; [discriminate|]. intros [(v & E) _]. destruct (entry_map _ _ _ E); discriminate.
    + intros [_ H]. cbn. destruct b; [|auto]. destruct (proj1 H eq_refl) as [(v & E) _]. destruct (entry_map _ _ _ E); discriminate.
  - split; [discriminate|]. intros [[(l & H)|[H|(l & H)]] _]; discriminate.
  - split.
    + intros [= <-]. split; [eauto|]. split; [discriminate|]. intros [(v & E) _]. destruct (entry_map _ _ _ E); discriminate.
    + intros [_ H]. cbn. destruct b; [|auto]. destruct (proj1 H eq_refl) as [(v & E) _]. destruct (entry_map _ _ _ E); discriminate.
  - destruct (IsRangeValue_ok (fun _ => @None unit) (fun _ => None) l T) as (b' & E & H). rewrite E. split.
    + intros [= <-]. split; [left; exists l; auto|exact H].
    + intros [_ G]. f_equal. destruct b, b'; tauto || (exfalso; intuition congruence).
Qed.
Section Probe.
Variables (f : yaml -> outcome bool) (shape : yaml -> Prop).
Hypothesis f_iff : forall n b, tidy_map n -> f n = Ok b <-> looked_into n /\ (b = true <-> shape n).
Hypothesis shape_map : forall n, shape n -> a_map n.
Lemma all_of_probed : forall l b, (forall e, In e l -> tidy_map e) -> all_of f l = Ok b <-> probed shape l b.
Proof.
  intros l b. induction l as [|x l IH]; intro T.
  - cbn. destruct b; split; intro H; auto; try discriminate; [constructor|]. destruct H as (l1 & x & l2 & E & _). destruct l1; discriminate.
  - assert (IH' : all_of f l = Ok b <-> probed shape l b) by (apply IH; intros e I; apply T; right; exact I).
    assert (Tx : tidy_map x) by (apply T; left; auto). cbn [all_of]. rewrite obind_ok. split.
    + intros (c & E & H). apply f_iff in E; auto. destruct E as [Lx E]. destruct c.
      * apply IH' in H. destruct b; cbn [probed] in *; [constructor; tauto|]. destruct H as (l1 & y & l2 & -> & F & N & L). exists (x :: l1), y, l2. split; [auto|]. split; [constructor; tauto|auto].
      * injection H as <-. exists [], x, l. split; [auto|]. split; [constructor|]. split; [intro Q; apply E in Q; discriminate|exact Lx].
    + destruct b; cbn [probed]; intro H.
      * inversion H; subst. exists true. split; [apply f_iff; auto; split; [left; auto|tauto]|]. apply IH'. exact H3.
      * destruct H as ([|y l1] & z & l2 & E & F & N & L); cbn in E; injection E as -> ->.
        -- exists false. split; [apply f_iff; auto; split; [auto|split; [discriminate|tauto]]|auto].
        -- inversion F; subst. exists true. split; [apply f_iff; auto; split; [left; auto|tauto]|]. apply IH'. exists l1, z, l2. auto.
Qed.
Lemma tells_ok : forall n key b, a_map n -> (forall l e, entry n key (Seq l) -> In e l -> tidy_map e) ->
  (exists vn, get n key = Ok vn /\ (if is_defined vn then all_of f (items vn) else Ok false) = Ok b) <-> tells n key shape b.
Proof.
  intros n key b M T. unfold tells. split.
  - intros (vn & E & H). destruct (is_defined vn) eqn:Df.
    + apply defined_iff in Df. apply get_entry in E; auto. right. destruct vn as [| |s|l|[|p l]]; cbn [items map] in H; try (left; eexists; split; [exact E|]; split; [split; intros; discriminate|]; cbn in H; congruence).
      * right. exists l. split; auto. apply all_of_probed in H; [auto|]. intros e I. exact (T l e E I).
      * exfalso. cbn [all_of] in H. rewrite obind_ok in H. destruct H as (c & E' & _).
        apply f_iff in E'; [|intros m Em; discriminate]. destruct E' as [[(l' & Q)|[Q|(l' & Q)]] _]; discriminate.
    + injection H as <-. left. destruct vn; try discriminate. apply get_absent in E. auto.
  - intros [[A ->]|[(v & E & [N1 N2] & ->)|(l & E & H)]].
    + exists Undefined. split; [apply absent_undefined; auto|auto].
    + exists v. pose proof (proj1 E) as Nv. split; [apply get_entry; auto|]. destruct v as [| |s|l|[|p l]]; try congruence; try reflexivity.
    + exists (Seq l). split; [apply get_entry; [discriminate|auto]|]. cbn [is_defined items]. apply all_of_probed; [|exact H]. intros e I. exact (T l e E I).
Qed.
End Probe.
Lemma discrete_map : forall n, discrete_shape n -> a_map n.
Proof. intros n [(v & E) _]. exact (entry_map _ _ _ E). Qed.
Lemma range_map : forall n, range_shape n -> a_map n.
Proof. intros n [(v & E) _]. exact (entry_map _ _ _ E). Qed.
Lemma probed_fun : forall shape l b c, probed shape l b -> probed shape l c -> b = c.
Proof.
  assert (Q : forall shape l, probed shape l true -> probed shape l false -> False).
  { intros shape l F (l1 & x & l2 & -> & _ & N & _). cbn in F. rewrite Forall_forall in F. apply N, F. apply in_or_app. right. left. auto. }
  intros shape l [] [] H G; auto; exfalso; eapply Q; eauto.
Qed.
Lemma tells_fun : forall n key shape b c, tells n key shape b -> tells n key shape c -> b = c.
Proof.
  intros n key shape b c [[A ->]|[(v & E & N & ->)|(l & E & H)]] [[B ->]|[(w & F & O & ->)|(m & F & G)]]; auto;
    try (exfalso; eapply A; eassumption); try (exfalso; eapply B; eassumption).
  - pose proof (entry_functional _ _ _ _ E F). subst v. destruct (proj1 N m eq_refl).
  - pose proof (entry_functional _ _ _ _ E F). subst w. destruct (proj1 O l eq_refl).
  - pose proof (entry_functional _ _ _ _ E F) as Q. injection Q as <-. eapply probed_fun; eassumption.
Qed.

Lemma memplace_ok {V} : forall k (v : V) m m', conv (memplace String.eqb k v m) = Ok m' <-> ~ In k (map fst m) /\ m' = (m ++ [(k, v)])%list.
Proof.
  intros k v m m'. rewrite conv_ok. unfold memplace. destruct (mhas String.eqb k m) eqn:E.
  - apply (mhas_in _ seqb_ok) in E. split; [discriminate|tauto].
  - assert (~ In k (map fst m)) by (intro I; apply (mhas_in _ seqb_ok) in I; congruence). split; [intros [= <-]; auto|]. intros [_ ->]. auto.
Qed.
Lemma mhas_not {V} : forall k (m : list (string * V)), negb (mhas String.eqb k m) = true <-> ~ In k (map fst m).
Proof. intros k m. rewrite negb_true_iff, <- not_true_iff_false, (mhas_in _ seqb_ok). reflexivity. Qed.

Section Registered.
Context {D : Type}.
Variables (to_double : string -> option D) (to_int : string -> option Z) (null_text : option string) (Dleb Deqb : D -> D -> bool) (zero : D).
Variable lane_length : string -> option D.
Hypothesis zero_le : Dleb zero zero = true.
Hypothesis le_number : forall x y, Dleb x y = true -> Deqb x x = true /\ Deqb y y = true.
Hypothesis eq_same : forall x y, Deqb x y = true -> x = y.
Notation text := (text null_text).
Notation ident := (ident null_text).

(** ** Related things *)
Lemma push_ids_ok : forall kn l g g', push_ids null_text kn l g = Ok g' <-> exists k ids, (l <> [] -> text kn k) /\ Forall2 ident l ids /\ g' = push_all (map (pair k) ids) g.
Proof.
  intros kn l. induction l as [|x l IH]; intros g g'.
  - cbn. split; [intros [= <-]; exists "", []; split; [congruence|]; split; [constructor|auto]|]. intros (k & ids & _ & F & ->). inversion F. reflexivity.
  - cbn [push_ids]. split.
    + intro H. steps H. rewrite as_string_ok in E. rewrite as_id_ok in E0. apply IH in H. destruct H as (k & ids & T & F & ->). exists x0, (x1 :: ids). split; [auto|]. split; [constructor; auto|].
      cbn [map push_all fold_left fst snd]. destruct l as [|y l]; [inversion F; reflexivity|]. rewrite (text_fun null_text kn x0 k); auto. apply T. discriminate.
    + intros (k & ids & T & F & ->). inversion F as [|? id ? ids' Hx Fl]; subst. pose proof (T ltac:(discriminate)) as Tk. rewrite (proj2 (as_string_ok null_text kn k) Tk). cbn [obind].
      rewrite (proj2 (as_id_ok null_text x id) Hx). cbn [obind map push_all fold_left fst snd]. apply IH. exists k, ids'. auto.
Qed.
Lemma push_pair_ok : forall kn vn g g', push_ids null_text kn (items vn) g = Ok g' <-> exists ms, pair_mentions null_text (kn, vn) ms /\ g' = push_all ms g.
Proof.
  intros kn vn g g'. rewrite push_ids_ok. split.
  - intros (k & ids & T & F & ->). destruct vn as [| |s|l|[|p l]]; cbn [items map] in *; try (inversion F; subst; exists []; split; [apply pm_none; split; intros; discriminate|auto]).
    + exists (map (pair k) ids). split; [constructor; auto|auto].
    + exfalso. inversion F as [|? ? ? ? [[Q|[Q _]] _]]; discriminate.
  - intros (ms & P & ->). inversion P as [? l k ids T F|? ? [N1 N2]]; subst.
    + exists k, ids. auto.
    + exists "", []. destruct vn as [| |s|l|[|p l]]; cbn [items map]; try (split; [congruence|split; [constructor|auto]]); [destruct (N1 l eq_refl)|destruct (N2 p l eq_refl)].
Qed.
Lemma push_pairs_ok : forall l g g', push_pairs null_text l g = Ok g' <-> exists mss, Forall2 (pair_mentions null_text) l mss /\ g' = push_all (concat mss) g.
Proof.
  intro l. induction l as [|[kn vn] l IH]; intros g g'.
  - cbn. split; [intros [= <-]; exists []; split; [constructor|auto]|]. intros (mss & F & ->). inversion F. reflexivity.
  - cbn [push_pairs]. rewrite obind_ok. split.
    + intros (h & E & H). apply push_pair_ok in E. destruct E as (ms & P & ->). apply IH in H. destruct H as (mss & F & ->). exists (ms :: mss). split; [constructor; auto|]. cbn [concat]. rewrite push_all_app. reflexivity.
    + intros (mss & F & ->). inversion F as [|? ms ? mss' P Fl]; subst. exists (push_all ms g). split; [apply push_pair_ok; eauto|]. apply IH. exists mss'. split; auto. cbn [concat]. apply push_all_app.
Qed.
Lemma push_item_ok : forall n g g', push_pairs null_text (pairs n) g = Ok g' <-> exists ms, item_mentions null_text n ms /\ g' = push_all ms g.
Proof.
  intros n g g'. assert (Other : ~ a_map n -> push_pairs null_text (pairs n) g = Ok g -> push_pairs null_text (pairs n) g = Ok g' <-> exists ms, item_mentions null_text n ms /\ g' = push_all ms g).
  { intros N E. rewrite E. split; [intros [= <-]; exists []; split; [constructor; auto|auto]|]. intros (ms & I & ->). inversion I; subst; [|reflexivity]. destruct N. eexists. reflexivity. }
  destruct n as [| |s|l|l].
  - apply Other; [intros (? & ?); discriminate|auto].
  - apply Other; [intros (? & ?); discriminate|auto].
  - apply Other; [intros (? & ?); discriminate|auto].
  - apply Other; [intros (? & ?); discriminate|]. cbn [pairs]. clear Other. induction l as [|x l IH]; [auto|]. cbn. exact IH.
  - cbn [pairs]. rewrite push_pairs_ok. split.
    + intros (mss & F & ->). exists (concat mss). split; [constructor; auto|auto].
    + intros (ms & I & ->). inversion I as [? mss F|? N]; subst; [eauto|]. destruct N. eexists. reflexivity.
Qed.
Lemma push_maps_ok : forall l g g', push_maps null_text l g = Ok g' <-> exists mss, Forall2 (item_mentions null_text) l mss /\ g' = push_all (concat mss) g.
Proof.
  intro l. induction l as [|n l IH]; intros g g'.
  - cbn. split; [intros [= <-]; exists []; split; [constructor|auto]|]. intros (mss & F & ->). inversion F. reflexivity.
  - cbn [push_maps]. rewrite obind_ok. split.
    + intros (h & E & H). apply push_item_ok in E. destruct E as (ms & P & ->). apply IH in H. destruct H as (mss & F & ->). exists (ms :: mss). split; [constructor; auto|]. cbn [concat]. rewrite push_all_app. reflexivity.
    + intros (mss & F & ->). inversion F as [|? ms ? mss' P Fl]; subst. exists (push_all ms g). split; [apply push_item_ok; eauto|]. apply IH. exists mss'. split; auto. cbn [concat]. apply push_all_app.
Qed.
Lemma GetRelated_ok : forall key n g, GetRelated null_text key n = Ok g <-> related_at null_text n key g.
Proof.
  intros key n g. unfold GetRelated, related_at. split.
  - intro H. steps H. apply is_seq_iff in C. rewrite C in E. apply get_entry in E; [|discriminate]. apply push_maps_ok in H. destruct H as (mss & F & ->). exists (elements x), mss. split; [auto|]. split; [auto|]. exact (push_all_grouped (concat mss) []).
  - intros (l & mss & E & F & ->). apply get_entry in E; [|discriminate]. rewrite E. cbn [obind throw_unless is_seq elements]. apply push_maps_ok. exists mss. split; auto. symmetry. exact (push_all_grouped (concat mss) []).
Qed.
Lemma related_keys : forall n key g, related_at null_text n key g -> NoDup (map fst g).
Proof. intros n key g (l & mss & _ & _ & ->). apply grouped_keys. Qed.

(** ** Values *)
Notation denotes_dval := (denotes_dval to_int null_text).
Notation denotes_rval := (denotes_rval to_double to_int null_text Dleb).
Lemma GetDiscreteValue_ok : forall n v, GetDiscreteValue to_int null_text n = Ok v <-> denotes_dval n v.
Proof.
  intros n v. unfold GetDiscreteValue, RuleLoaders_Spec.denotes_dval. split.
  - intro H. steps H. injection H as <-. apply is_map_iff in C. apply severity_ok in E; auto. apply GetRelated_ok in E0. apply GetRelated_ok in E1. cbn [dv_severity dv_rules dv_ids dv_value].
    split; [auto|]. split; [auto|]. split; [auto|]. apply text_need. eauto.
  - intros (S & R & U & T). apply text_need in T. destruct T as (vn & T1 & T2). assert (M : a_map n) by (apply need_ok in T1; exact (entry_map _ _ _ T1)).
    apply severity_ok in S; auto. apply GetRelated_ok in R. apply GetRelated_ok in U. apply is_map_iff in M. run. destruct v; reflexivity.
Qed.
Lemma GetRange_ok : forall n v, GetRange to_double to_int null_text Dleb n = Ok v <-> denotes_rval n v.
Proof.
  intros n v. unfold GetRange, RuleLoaders_Spec.denotes_rval. split.
  - intro H. steps H. apply is_map_iff in C. destruct x as [| | |[|a [|b [|]]]|]; try discriminate. steps H. injection H as <-.
    apply severity_ok in E2; auto. apply GetRelated_ok in E3. apply GetRelated_ok in E4. cbn [rv_severity rv_rules rv_ids rv_desc rv_min rv_max].
    split; [auto|]. split; [auto|]. split; [auto|]. split; [apply text_need; eauto|]. exists a, b. apply get_entry in E; [|discriminate]. rewrite <- !as_double_ok. auto.
  - intros (S & R & U & T & a & b & E & Na & Nb & L). apply text_need in T. destruct T as (vn & T1 & T2). assert (M : a_map n) by (apply need_ok in T1; exact (entry_map _ _ _ T1)).
    apply severity_ok in S; auto. apply GetRelated_ok in R. apply GetRelated_ok in U. apply is_map_iff in M. apply get_entry in E; [|discriminate]. rewrite <- (as_double_ok to_double) in Na, Nb.
    rewrite M, E. cbn [obind throw_unless]. run. destruct v; reflexivity.
Qed.
Lemma dval_keys : forall n v, denotes_dval n v -> dkeys v.
Proof. intros n v (_ & R & U & _). split; eapply related_keys; eassumption. Qed.
Lemma rval_keys : forall n v, denotes_rval n v -> rkeys v.
Proof. intros n v (_ & R & U & _). split; eapply related_keys; eassumption. Qed.
Lemma Forall2_right {A B} : forall (P : A -> B -> Prop) (Q : B -> Prop) l m, (forall a b, P a b -> Q b) -> Forall2 P l m -> Forall Q m.
Proof. intros P Q l m H F. induction F; constructor; eauto. Qed.

(** ** Rules *)
Notation denotes_drule := (denotes_drule to_double to_int null_text Dleb zero lane_length).
Notation denotes_rrule := (denotes_rrule to_double to_int null_text Dleb zero lane_length).
Notation denotes_rule := (denotes_rule to_double to_int null_text Dleb zero lane_length).
Definition good_types (reg : rule_types (D := D)) : Prop := NoDup (map fst (ty_discrete reg)) /\ NoDup (map fst (ty_range reg)).
Lemma BuildDiscreteValueRule_ok : forall reg id type zone vs (r : drule (D := D)), good_types reg -> Forall dkeys vs ->
  BuildDiscreteValueRule reg id type zone vs = Ok r <->
  (exists known, In (type, known) (ty_discrete reg) /\ forall v, In v vs -> In (dv_severity v, dv_value v) known) /\ good_values vs /\ r = mk_drule id type zone vs.
Proof.
  intros reg id type zone vs r [N _] K. unfold BuildDiscreteValueRule. rewrite obind_ok.
  assert (Q : forall known, forallb (fun v => existsb (fun k => Z.eqb (fst k) (dv_severity v) && (snd k =? dv_value v)) known) vs = true <-> forall v, In v vs -> In (dv_severity v, dv_value v) known).
  { intro known. rewrite forallb_forall. split.
    - intros H v I. specialize (H v I). apply existsb_exists in H. destruct H as ([z s] & I' & E). cbn [fst snd] in E. rewrite andb_true_iff, Z.eqb_eq, String.eqb_eq in E. destruct E as [-> ->]. exact I'.
    - intros H v I. apply existsb_exists. eexists. split; [exact (H v I)|]. cbn [fst snd]. rewrite Z.eqb_refl, String.eqb_refl. reflexivity. }
  split.
  - intros (known & E & H). rewrite throw_unless_ok, Q, DiscreteValueRule_ok in H by auto. rewrite conv_ok in E. apply (mfind_in _ seqb_ok) in E. split; [|tauto]. exists known. tauto.
  - intros [(known & I & H) G]. exists known. rewrite throw_unless_ok, Q, DiscreteValueRule_ok, conv_ok by auto. rewrite (mfind_nodup _ seqb_ok _ _ _ N I). auto.
Qed.
Lemma BuildRangeValueRule_ok : forall reg id type zone vs (r : rrule (D := D)), good_types reg -> Forall rkeys vs -> Forall (fun v => Dleb (rv_min v) (rv_max v) = true) vs ->
  BuildRangeValueRule Dleb Deqb reg id type zone vs = Ok r <->
  (exists known, In (type, known) (ty_range reg) /\ forall v, In v vs -> In (rv_severity v, rv_desc v, rv_min v, rv_max v) known) /\ good_ranges Dleb vs /\ r = mk_rrule id type zone vs.
Proof.
  intros reg id type zone vs r [_ N] K L. unfold BuildRangeValueRule. rewrite obind_ok.
  assert (Q : forall known, forallb (fun v => existsb (fun k : Z * string * D * D => let '(z, d, lo, hi) := k in Z.eqb z (rv_severity v) && Deqb lo (rv_min v) && Deqb hi (rv_max v) && (d =? rv_desc v)) known) vs = true <->
                            forall v, In v vs -> In (rv_severity v, rv_desc v, rv_min v, rv_max v) known).
  { intro known. rewrite forallb_forall. split.
    - intros H v I. specialize (H v I). apply existsb_exists in H. destruct H as ([[[z d] lo] hi] & I' & E). rewrite !andb_true_iff, Z.eqb_eq, String.eqb_eq in E. destruct E as [[[-> E1] E2] ->].
      apply eq_same in E1. apply eq_same in E2. subst. exact I'.
    - intros H v I. apply existsb_exists. eexists. split; [exact (H v I)|]. cbn beta iota. rewrite Forall_forall in L. destruct (le_number _ _ (L v I)) as [L1 L2]. rewrite Z.eqb_refl, String.eqb_refl, L1, L2. reflexivity. }
  split.
  - intros (known & E & H). rewrite throw_unless_ok, Q, RangeValueRule_ok in H by auto. rewrite conv_ok in E. apply (mfind_in _ seqb_ok) in E. split; [|tauto]. exists known. tauto.
  - intros [(known & I & H) G]. exists known. rewrite throw_unless_ok, Q, RangeValueRule_ok, conv_ok by auto. rewrite (mfind_nodup _ seqb_ok _ _ _ N I). auto.
Qed.
Lemma AddDiscreteValueRule_ok : forall reg n (b b' : rulebook (D := D)), good_types reg ->
  AddDiscreteValueRule to_double to_int null_text Dleb zero lane_length reg n b = Ok b' <->
  exists r, denotes_drule reg n r /\ ~ In (dr_id r) (map fst (bk_range b)) /\ ~ In (dr_id r) (map fst (bk_discrete b)) /\
    b' = mk_rulebook (bk_rows b) (bk_dirs b) (bk_discrete b ++ [(dr_id r, r)])%list (bk_range b).
Proof.
  intros reg n b b' G. split.
  - intro H. unfold AddDiscreteValueRule in H. steps H. rewrite each_ok_ok in E0.
    assert (F : Forall2 denotes_dval (items x) x0) by (revert E0; apply Forall2_iff; intros; symmetry; apply GetDiscreteValue_ok).
    apply BuildDiscreteValueRule_ok in E7; [|auto|eapply Forall2_right; [exact dval_keys|exact F]]. destruct E7 as (Rg & Gv & ->).
    unfold add_discrete in H. steps H. injection H as <-. apply mhas_not in C0. apply memplace_ok in E7. destruct E7 as [I ->]. cbn [dr_id] in *.
    exists (mk_drule x2 x4 x6 x0). split; [|auto]. unfold RuleLoaders_Spec.denotes_drule. cbn [dr_id dr_type dr_zone dr_values].
    split; [apply ident_need; eauto|]. split; [apply ident_need; eauto|]. split; [apply zone_need; eauto|]. split; [|auto].
    apply need_ok in E. destruct x as [| |s|l|[|p l]]; cbn [items map] in F.
    1-3,5: inversion F; subst; destruct (proj1 Gv eq_refl).
    + eauto.
    + exfalso. inversion F as [|? ? ? ? Q]. destruct Q as (_ & _ & _ & (v & E' & _)). destruct (entry_map _ _ _ E'). discriminate.
  - intros (r & (Hi & Ht & Hz & (l & El & Fl) & Gv & Rg) & I1 & I2 & ->).
    apply ident_need in Hi. destruct Hi as (idn & Hi1 & Hi2). apply ident_need in Ht. destruct Ht as (tn & Ht1 & Ht2). apply zone_need in Hz; [|exact zero_le]. destruct Hz as (zn & Hz1 & Hz2).
    assert (M : is_map n = true) by (apply is_map_iff; exact (entry_map _ _ _ El)). apply need_ok in El.
    assert (F : each_ok (GetDiscreteValue to_int null_text) l = Ok (dr_values r)) by (apply each_ok_ok; revert Fl; apply Forall2_iff; intros; apply GetDiscreteValue_ok).
    assert (B : BuildDiscreteValueRule reg (dr_id r) (dr_type r) (dr_zone r) (dr_values r) = Ok r).
    { apply BuildDiscreteValueRule_ok; [auto|eapply Forall2_right; [exact dval_keys|exact Fl]|]. destruct r; auto. }
    unfold AddDiscreteValueRule. rewrite M, El. cbn [throw_unless obind items]. rewrite F. cbn [obind]. run. unfold add_discrete. rewrite (proj2 (mhas_not _ _) I1). cbn [throw_unless].
    rewrite (proj2 (memplace_ok _ _ _ _) (conj I2 eq_refl)). reflexivity.
Qed.
Lemma AddRangeValueRule_ok : forall reg n (b b' : rulebook (D := D)), good_types reg ->
  AddRangeValueRule to_double to_int null_text Dleb Deqb zero lane_length reg n b = Ok b' <->
  exists r, denotes_rrule reg n r /\ ~ In (rr_id r) (map fst (bk_range b)) /\ ~ In (rr_id r) (map fst (bk_discrete b)) /\
    b' = mk_rulebook (bk_rows b) (bk_dirs b) (bk_discrete b) (bk_range b ++ [(rr_id r, r)])%list.
Proof.
  assert (Le : forall l vs, Forall2 denotes_rval l vs -> Forall (fun v => Dleb (rv_min v) (rv_max v) = true) vs).
  { intros l vs F. eapply Forall2_right; [|exact F]. intros a v (_ & _ & _ & _ & x & y & _ & _ & _ & L). exact L. }
  intros reg n b b' G. split.
  - intro H. unfold AddRangeValueRule in H. steps H. rewrite each_ok_ok in E0.
    assert (F : Forall2 denotes_rval (items x) x0) by (revert E0; apply Forall2_iff; intros; symmetry; apply GetRange_ok).
    apply BuildRangeValueRule_ok in E7; [|auto|eapply Forall2_right; [exact rval_keys|exact F]|eapply Le; exact F]. destruct E7 as (Rg & Gv & ->).
    unfold add_range in H. steps H. injection H as <-. apply mhas_not in C0. apply memplace_ok in E7. destruct E7 as [I ->]. cbn [rr_id] in *.
    exists (mk_rrule x2 x4 x6 x0). split; [|auto]. unfold RuleLoaders_Spec.denotes_rrule. cbn [rr_id rr_type rr_zone rr_ranges].
    split; [apply ident_need; eauto|]. split; [apply ident_need; eauto|]. split; [apply zone_need; eauto|]. split; [|auto].
    apply need_ok in E. destruct x as [| |s|l|[|p l]]; cbn [items map] in F.
    1-3,5: inversion F; subst; destruct (proj1 Gv eq_refl).
    + eauto.
    + exfalso. inversion F as [|? ? ? ? Q]. destruct Q as (_ & _ & _ & (v & E' & _) & _). destruct (entry_map _ _ _ E'). discriminate.
  - intros (r & (Hi & Ht & Hz & (l & El & Fl) & Gv & Rg) & I1 & I2 & ->).
    apply ident_need in Hi. destruct Hi as (idn & Hi1 & Hi2). apply ident_need in Ht. destruct Ht as (tn & Ht1 & Ht2). apply zone_need in Hz; [|exact zero_le]. destruct Hz as (zn & Hz1 & Hz2).
    assert (M : is_map n = true) by (apply is_map_iff; exact (entry_map _ _ _ El)). apply need_ok in El.
    assert (F : each_ok (GetRange to_double to_int null_text Dleb) l = Ok (rr_ranges r)) by (apply each_ok_ok; revert Fl; apply Forall2_iff; intros; apply GetRange_ok).
    assert (B : BuildRangeValueRule Dleb Deqb reg (rr_id r) (rr_type r) (rr_zone r) (rr_ranges r) = Ok r).
    { apply BuildRangeValueRule_ok; [auto|eapply Forall2_right; [exact rval_keys|exact Fl]|eapply Le; exact Fl|]. destruct r; auto. }
    unfold AddRangeValueRule. rewrite M, El. cbn [throw_unless obind items]. rewrite F. cbn [obind]. run. unfold add_range. rewrite (proj2 (mhas_not _ _) I2). cbn [throw_unless].
    rewrite (proj2 (memplace_ok _ _ _ _) (conj I1 eq_refl)). reflexivity.
Qed.
Lemma base_ok : forall n, a_map n -> (exists b, HasBaseRuleProperties n = Ok b /\ (b = true <-> (exists v, entry n "id" v) /\ (exists v, entry n "type" v) /\ (exists v, entry n "zone" v))).
Proof.
  intros n [l ->]. unfold HasBaseRuleProperties, defined_at. cbn [get omap obind]. setoid_rewrite <- entry_defined.
  destruct (is_defined (lookup "id" l)); [|exists false; split; auto; split; [discriminate|intros [? _]; discriminate]].
  destruct (is_defined (lookup "type" l)); [|exists false; split; auto; split; [discriminate|intros (_ & ? & _); discriminate]].
  eexists. split; [reflexivity|]. tauto.
Qed.
(** With the base properties present, the kind of a rule is what its values and ranges tell. *)
Lemma EvaluateRule_ok : forall n t, tidy_rule n -> t <> Unknown ->
  EvaluateRule n = Ok t <-> ((exists v, entry n "id" v) /\ (exists v, entry n "type" v) /\ (exists v, entry n "zone" v)) /\
    exists d r, tells n "values" discrete_shape d /\ tells n "ranges" range_shape r /\ t = (if r then TRange else if d then TDiscrete else Unknown).
Proof.
  intros n t Td Nt.
  assert (P1 : forall b, a_map n -> (exists vn, get n "values" = Ok vn /\ (if is_defined vn then all_of IsDiscreteValue (items vn) else Ok false) = Ok b) <-> tells n "values" discrete_shape b).
  { intros b M. apply tells_ok; auto; [exact IsDiscreteValue_iff|exact discrete_map|]. intros l e E I. exact (Td "values" l e (or_introl eq_refl) E I). }
  assert (P2 : forall b, a_map n -> (exists vn, get n "ranges" = Ok vn /\ (if is_defined vn then all_of IsRangeValue (items vn) else Ok false) = Ok b) <-> tells n "ranges" range_shape b).
  { intros b M. apply tells_ok; auto; [exact IsRangeValue_iff|exact range_map|]. intros l e E I. exact (Td "ranges" l e (or_intror eq_refl) E I). }
  split.
  - intro H. unfold EvaluateRule in H. steps H. apply is_map_iff in C. destruct (base_ok n C) as (b & Eb & Hb).
    unfold IsDiscreteValueRule in E. unfold IsRangeValueRule in E0. rewrite Eb in E, E0. cbn [obind] in E, E0. destruct b.
    + split; [apply Hb; auto|]. exists x, x0. rewrite obind_ok in E, E0. apply P1 in E; auto. apply P2 in E0; auto. injection H as <-. auto.
    + injection E as <-. injection E0 as <-. injection H as <-. congruence.
  - intros [B (d & r & T1 & T2 & ->)]. assert (M : a_map n) by (destruct B as [(v & E) _]; exact (entry_map _ _ _ E)).
    destruct (base_ok n M) as (b & Eb & Hb). destruct b; [|apply Hb in B; discriminate]. unfold EvaluateRule. rewrite (proj2 (is_map_iff n) M). cbn [throw_unless].
    assert (Nz : negb (Nat.eqb (ysize n) 0) = true).
    { destruct B as [(v & _ & l1 & l2 & -> & _) _]. cbn [ysize]. rewrite app_length. cbn. rewrite Nat.add_succ_r. reflexivity. }
    rewrite Nz. cbn [throw_unless]. unfold IsDiscreteValueRule, IsRangeValueRule. rewrite Eb. cbn [obind].
    apply P1 in T1; auto. apply P2 in T2; auto. apply obind_ok in T1. apply obind_ok in T2. rewrite T1. cbn [obind]. rewrite T2. reflexivity.
Qed.
Definition book_of (rs : list (drule (D := D) + rrule (D := D))) : rulebook := mk_rulebook [] [] (discretes rs) (ranges rs).
Lemma book_ids : forall rs id, In id (map rule_id rs) <-> In id (map fst (bk_discrete (book_of rs))) \/ In id (map fst (bk_range (book_of rs))).
Proof.
  intros rs id. cbn [book_of bk_discrete bk_range]. induction rs as [|[d|r] rs IH]; cbn [map discretes ranges flat_map app]; [cbn; tauto| |];
    cbn [map fst rule_id In] in *; unfold discretes, ranges in *; rewrite IH; tauto.
Qed.
Lemma load_rule_ok : forall reg n rs b', good_types reg -> tidy_rule n ->
  load_rule to_double to_int null_text Dleb Deqb zero lane_length reg n (book_of rs) = Ok b' <->
  exists r, denotes_rule reg n r /\ ~ In (rule_id r) (map rule_id rs) /\ b' = book_of (rs ++ [r]).
Proof.
  intros reg n rs b' G T. unfold load_rule. rewrite obind_ok.
  assert (App1 : forall d, discretes (rs ++ [inl d]) = (discretes rs ++ [(dr_id d, d)])%list /\ ranges (rs ++ [inl d]) = ranges rs).
  { intro d. unfold discretes, ranges. rewrite !flat_map_app. cbn. rewrite app_nil_r. auto. }
  assert (App2 : forall r, discretes (rs ++ [inr r]) = discretes rs /\ ranges (rs ++ [inr r]) = (ranges rs ++ [(rr_id r, r)])%list).
  { intro r. unfold discretes, ranges. rewrite !flat_map_app. cbn. rewrite app_nil_r. auto. }
  split.
  - intros (t & E & H). destruct t; [discriminate| |].
    + apply EvaluateRule_ok in E; [|auto|discriminate]. destruct E as [_ (d & r & T1 & T2 & Q)]. destruct r; [discriminate|]. destruct d; [|discriminate].
      apply AddDiscreteValueRule_ok in H; auto. destruct H as (x & Dn & I1 & I2 & ->). exists (inl x). split; [cbn; auto|]. split; [rewrite book_ids; cbn [rule_id]; tauto|].
      unfold book_of. destruct (App1 x) as [-> ->]. reflexivity.
    + apply EvaluateRule_ok in E; [|auto|discriminate]. destruct E as [_ (d & r & T1 & T2 & Q)]. destruct r; [|destruct d; discriminate].
      apply AddRangeValueRule_ok in H; auto. destruct H as (x & Dn & I1 & I2 & ->). exists (inr x). split; [cbn; eauto|]. split; [rewrite book_ids; cbn [rule_id]; tauto|].
      unfold book_of. destruct (App2 x) as [-> ->]. reflexivity.
  - intros ([x|x] & Dn & I & ->); rewrite book_ids in I; cbn [rule_id] in I.
    + destruct Dn as (T1 & T2 & Dn). exists TDiscrete. split.
      * apply EvaluateRule_ok; [auto|discriminate|]. split; [|exists true, false; auto]. destruct Dn as ((v1 & E1 & _) & (v2 & E2 & _) & (l3 & E3 & _) & _). split; [eauto|split; eauto].
      * apply AddDiscreteValueRule_ok; auto. exists x. split; [auto|]. split; [tauto|]. split; [tauto|]. unfold book_of. destruct (App1 x) as [-> ->]. reflexivity.
    + destruct Dn as ((d & T1) & T2 & Dn). exists TRange. split.
      * apply EvaluateRule_ok; [auto|discriminate|]. split; [|exists d, true; auto]. destruct Dn as ((v1 & E1 & _) & (v2 & E2 & _) & (l3 & E3 & _) & _). split; [eauto|split; eauto].
      * apply AddRangeValueRule_ok; auto. exists x. split; [auto|]. split; [tauto|]. split; [tauto|]. unfold book_of. destruct (App2 x) as [-> ->]. reflexivity.
Qed.
Lemma load_rules_ok : forall reg l rs b', good_types reg -> (forall e, In e l -> tidy_rule e) -> NoDup (map rule_id rs) ->
  load_rules to_double to_int null_text Dleb Deqb zero lane_length reg l (book_of rs) = Ok b' <->
  exists rs', Forall2 (denotes_rule reg) l rs' /\ NoDup (map rule_id (rs ++ rs')) /\ b' = book_of (rs ++ rs').
Proof.
  intros reg l. induction l as [|n l IH]; intros rs b' G T N; cbn [load_rules].
  - split; [intros [= <-]; exists []; rewrite app_nil_r; auto|]. intros (rs' & F & _ & ->). inversion F. rewrite app_nil_r. reflexivity.
  - assert (Tl : forall e, In e l -> tidy_rule e) by (intros e I; apply T; right; exact I).
    rewrite obind_ok. split.
    + intros (b1 & E & H). apply load_rule_ok in E; [|auto|apply T; left; auto]. destruct E as (r & Dn & I & ->).
      apply IH in H; auto; [|rewrite map_app; apply NoDup_app_last; auto]. destruct H as (rs' & F & Nd & ->). rewrite <- app_assoc in *. exists (r :: rs'). split; [constructor; auto|auto].
    + intros (rs' & F & Nd & ->). inversion F as [|? r ? rs1 Dn Fl]; subst.
      assert (I : ~ In (rule_id r) (map rule_id rs)). { rewrite map_app in Nd. apply NoDup_remove_2 in Nd. intro I. apply Nd. apply in_or_app. auto. }
      exists (book_of (rs ++ [r])). split; [apply load_rule_ok; [auto|apply T; left; auto|eauto]|].
      apply IH; auto; [rewrite map_app; apply NoDup_app_last; auto|]. exists rs1. rewrite <- app_assoc. auto.
Qed.
Lemma LoadRoadRulebook_ok : forall reg n b, good_types reg -> tidy_rulebook n ->
  LoadRoadRulebook to_double to_int null_text Dleb Deqb zero lane_length reg n = Ok b <-> denotes_rulebook to_double to_int null_text Dleb zero lane_length reg n b.
Proof.
  intros reg n b G T. unfold LoadRoadRulebook, denotes_rulebook. split.
  - intro H. steps H. apply need_ok in E. apply is_seq_iff in C0. rewrite C0 in E. change empty_book with (book_of []) in H.
    apply load_rules_ok in H; [|auto|intros e I; exact (T _ e E I)|constructor]. destruct H as (rs & F & N & ->). exists (elements x), rs. cbn. auto 8.
  - intros (l & rs & E & F & N & H1 & H2 & H3 & H4). rewrite (proj2 (is_map_iff n) (entry_map _ _ _ E)), (proj2 (need_ok _ _ _) E). cbn [throw_unless obind is_seq elements].
    change empty_book with (book_of []). apply load_rules_ok; [auto|intros e I; exact (T _ e E I)|constructor|]. exists rs. split; [auto|]. split; [auto|]. destruct b; cbn in *; subst. reflexivity.
Qed.
End Registered.
