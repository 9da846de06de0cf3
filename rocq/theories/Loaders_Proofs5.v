(** Lemmas for the loaders: the rule registry. *)
From Coq Require Import String List Bool Arith ZArith Lia FinFun.
From Verif Require Import Base Maps Loaders_Model Loaders_Spec Loaders_Proofs Loaders_Proofs2 Loaders_Proofs3.
Import ListNotations.
Local Open Scope string_scope.

Lemma ForallOrdPairs_iff {A} : forall (P Q : A -> A -> Prop) l, (forall x y, In x l -> In y l -> (P x y <-> Q x y)) -> ForallOrdPairs P l <-> ForallOrdPairs Q l.
Proof.
  intros P Q l. induction l as [|x l IH]; intro H.
  - split; constructor.
  - assert (IH' : ForallOrdPairs P l <-> ForallOrdPairs Q l) by (apply IH; intros a b I J; apply H; right; assumption).
    split; intro F; inversion F as [|y m F1 F2]; subst; constructor; try (apply IH'; assumption); rewrite Forall_forall in *; intros y J; apply H; auto; [left; auto|right; auto|left; auto|right; auto].
Qed.
(** Every element occurs once iff no two are equal. *)
Lemma count_pairs {A} : forall (eqb : A -> A -> bool) l, (forall x, In x l -> eqb x x = true) -> (forall x y, In x l -> In y l -> eqb x y = true -> eqb y x = true) ->
  (forallb (fun v => Nat.eqb (length (filter (eqb v) l)) 1) l = true <-> ForallOrdPairs (fun v w => eqb v w = false) l).
Proof.
  intros eqb l. rewrite forallb_forall. induction l as [|x l IH]; intros Rf Sy.
  - split; [constructor|]. intros _ y [].
  - assert (Z : forall v, length (filter (eqb v) l) = 0 <-> forall w, In w l -> eqb v w = false).
    { intro v. clear. induction l as [|y l IH]; cbn; [split; [intros _ w []|reflexivity]|]. destruct (eqb v y) eqn:E; cbn; split.
      - discriminate.
      - intro H. specialize (H y (or_introl eq_refl)). congruence.
      - intros H w [<-|I]; auto. apply IH; auto.
      - intro H. apply IH. intros w I. apply H. right. exact I. }
    assert (IH' : (forall v, In v l -> Nat.eqb (length (filter (eqb v) l)) 1 = true) <-> ForallOrdPairs (fun v w => eqb v w = false) l).
    { apply IH; [intros y I; apply Rf; right; exact I|intros y z I J; apply Sy; right; assumption]. }
    cbn [filter]. split.
    + intro H. assert (Hx : forall w, In w l -> eqb x w = false).
      { specialize (H x (or_introl eq_refl)). rewrite (Rf x (or_introl eq_refl)) in H. cbn in H. apply Nat.eqb_eq in H. apply Z. lia. }
      constructor; [rewrite Forall_forall; exact Hx|]. apply IH'. intros v I. specialize (H v (or_intror I)). destruct (eqb v x) eqn:E; [|exact H].
      apply Sy in E; [|right; exact I|left; auto]. rewrite (Hx v I) in E. discriminate.
    + intro F. inversion F as [|y m F1 F2]; subst. rewrite Forall_forall in F1. intros v [<-|I].
      * rewrite (Rf x (or_introl eq_refl)). cbn. apply Nat.eqb_eq. f_equal. apply Z. exact F1.
      * destruct (eqb v x) eqn:E; [apply Sy in E; [rewrite (F1 v I) in E; discriminate|right; exact I|left; auto]|]. apply IH'; auto.
Qed.

Section Registry.
Context {D : Type} (to_double : string -> option D) (to_int : string -> option Z) (null_text : option string) (Dleb Deqb : D -> D -> bool).
Notation text := (text null_text).
Notation ident := (ident null_text).
Notation rvalue := (rvalue (D := D)).
Notation denotes_value := (denotes_value to_double to_int null_text Dleb).

(** ** Shapes *)
Lemma entry_in : forall m k, NoDup (map fst m) -> (forall q, In q m -> snd q <> Undefined) -> (is_defined (lookup k m) = true <-> In (Scalar k) (map fst m)).
Proof.
  intros m k Nd U. induction m as [|[kn v] m IH]; [cbn; split; [discriminate|tauto]|].
  cbn [map fst In] in *. apply NoDup_cons_iff in Nd. destruct Nd as [N Nd].
  assert (IH' : is_defined (lookup k m) = true <-> In (Scalar k) (map fst m)) by (apply IH; auto; intros q I; apply U; right; exact I).
  assert (Skip : kn <> Scalar k -> (is_defined (lookup k m) = true <-> kn = Scalar k \/ In (Scalar k) (map fst m))) by (intro Ne; rewrite IH'; tauto).
  destruct kn as [| |k'| |]; cbn [lookup]; try (apply Skip; discriminate). destruct (String.eqb_spec k k') as [->|Ne]; [|apply Skip; congruence].
  rewrite defined_iff. split; auto. intros _. apply (U (Scalar k', v)). left. auto.
Qed.
Lemma size_only : forall m ks, NoDup (map fst m) -> NoDup ks -> (forall q, In q m -> snd q <> Undefined) ->
  (length m = length (filter (fun k => is_defined (lookup k m)) ks) <-> only_keys (Map m) ks).
Proof.
  intros m ks Nd Nk U. set (pr := filter (fun k => is_defined (lookup k m)) ks).
  assert (Npr : NoDup (map Scalar pr)).
  { apply FinFun.Injective_map_NoDup; [intros a b E; congruence|]. apply NoDup_filter. exact Nk. }
  assert (Inc : incl (map Scalar pr) (map fst m)).
  { intros x I. apply in_map_iff in I. destruct I as (k & <- & I). apply filter_In in I. apply entry_in; auto. apply I. }
  split.
  - intro E. assert (Inc' : incl (map fst m) (map Scalar pr)) by (apply NoDup_length_incl; auto; rewrite !map_length; lia).
    exists m. split; auto. intros p I. assert (J : In (fst p) (map Scalar pr)) by (apply Inc'; apply in_map; exact I).
    apply in_map_iff in J. destruct J as (k & F & J). apply filter_In in J. exists k. split; [apply J|auto].
  - intros (l & E & H). injection E as <-. assert (Inc' : incl (map fst m) (map Scalar pr)).
    { intros x I. pose proof I as J. apply in_map_iff in I. destruct I as (p & <- & I). destruct (H p I) as (k & K & F). rewrite F in *. apply in_map. apply filter_In. split; auto. apply entry_in; auto. }
    pose proof (NoDup_incl_length Nd Inc') as L1. pose proof (NoDup_incl_length Npr Inc) as L2. rewrite !map_length in *. lia.
Qed.
Lemma optional_count : forall m, optional_attributes (Map m) = Ok (length (filter (fun k => is_defined (lookup k m)) ["severity"; "related_rules"; "related_unique_ids"])).
Proof.
  intro m. unfold optional_attributes, defined_at. cbn [get omap obind filter].
  destruct (is_defined (lookup "severity" m)), (is_defined (lookup "related_rules" m)), (is_defined (lookup "related_unique_ids" m)); reflexivity.
Qed.
Lemma entry_defined : forall m k, is_defined (lookup k m) = true <-> exists v, entry (Map m) k v.
Proof.
  intros m k. rewrite defined_iff. split.
  - intro N. exists (lookup k m). apply lookup_entry; auto.
  - intros (v & E). pose proof (proj1 E) as N. apply lookup_entry in E; auto. congruence.
Qed.
Ltac nodup := repeat constructor; cbn; intuition discriminate.
Lemma IsDiscreteValue_ok : forall m, tidy_map (Map m) -> exists b, IsDiscreteValue (Map m) = Ok b /\ (b = true <-> discrete_shape (Map m)).
Proof.
  intros m T. destruct (T m eq_refl) as [Nd U]. unfold IsDiscreteValue, discrete_shape. unfold defined_at at 1. cbn [get omap obind]. setoid_rewrite <- entry_defined.
  destruct (is_defined (lookup "value" m)) eqn:E.
  - rewrite optional_count. cbn [omap ysize]. eexists. split; [reflexivity|]. rewrite Nat.eqb_eq, <- (size_only m); [|auto|nodup|auto].
    cbn [filter]. rewrite E. cbn [length Nat.add]. split; [intro H; split; [reflexivity|exact H]|tauto].
  - exists false. split; auto. split; [discriminate|intros [A _]; discriminate].
Qed.
Lemma IsRangeValue_ok : forall m, tidy_map (Map m) -> exists b, IsRangeValue (Map m) = Ok b /\ (b = true <-> range_shape (Map m)).
Proof.
  intros m T. destruct (T m eq_refl) as [Nd U]. unfold IsRangeValue, range_shape. unfold defined_at at 1. cbn [get omap obind]. setoid_rewrite <- entry_defined.
  destruct (is_defined (lookup "range" m)) eqn:E1; [|exists false; split; auto; split; [discriminate|intros [A _]; discriminate]].
  unfold defined_at at 1. cbn [get omap obind]. destruct (is_defined (lookup "description" m)) eqn:E2; [|exists false; split; auto; split; [discriminate|intros (_ & A & _); discriminate]].
  rewrite optional_count. cbn [omap ysize]. eexists. split; [reflexivity|]. rewrite Nat.eqb_eq, <- (size_only m); [|auto|nodup|auto].
  cbn [filter]. rewrite E1, E2. cbn [length Nat.add]. split; [intro H; auto|tauto].
Qed.
Lemma shapes_differ : forall n, discrete_shape n -> range_shape n -> False.
Proof.
  intros n [_ (l & -> & H)] [(v & _ & l1 & l2 & E & _) _]. injection E as E. destruct (H (Scalar "range", v)) as (k & I & F).
  - rewrite E. apply in_or_app. right. left. auto.
  - cbn in F. injection F as <-. cbn in I. intuition discriminate.
Qed.

(** The scan for the type. *)
Lemma evaluate_ok : forall l t, (forall e, In e l -> tidy_map e) -> forall t',
  evaluate l t = Ok t' ->
  match t' with
  | Unknown => (t = Unknown /\ Forall (fun e => ~ discrete_shape e /\ ~ range_shape e) l) \/
               ((t = TDiscrete \/ Exists discrete_shape l) /\ (t = TRange \/ Exists range_shape l))
  | TDiscrete => (t = TDiscrete \/ (t = Unknown /\ Exists discrete_shape l)) /\ Forall (fun e => ~ range_shape e) l
  | TRange => (t = TRange \/ (t = Unknown /\ Exists range_shape l)) /\ Forall (fun e => ~ discrete_shape e) l
  end.
Proof.
  induction l as [|n l IH]; intros t T t' H; cbn [evaluate] in H.
  - injection H as <-. destruct t; auto.
  - rewrite throw_unless_ok, is_map_iff in H. destruct H as [(m & ->) H]. pose proof (T _ (or_introl eq_refl)) as Tm.
    assert (T' : forall e, In e l -> tidy_map e) by (intros e I; apply T; right; exact I).
    destruct (IsDiscreteValue_ok m Tm) as (b & Eb & Sb). rewrite Eb in H. cbn [obind] in H. destruct (IsRangeValue_ok m Tm) as (c & Ec & Sc).
    destruct b.
    + pose proof (proj1 Sb eq_refl) as Ds. assert (Nr : ~ range_shape (Map m)) by (intro; eapply shapes_differ; eauto).
      destruct t; [| |injection H as <-; auto].
      * apply IH in H; auto. destruct t'.
        -- destruct H as [[H _]|[_ [H|H]]]; [discriminate|discriminate|]. right. split; right; [left; auto|right; auto].
        -- destruct H as [_ H]. split; [right; split; [auto|left; auto]|]. constructor; auto.
        -- destruct H as [[H|[H _]] _]; discriminate.
      * apply IH in H; auto. destruct t'.
        -- destruct H as [[H _]|[_ [H|H]]]; [discriminate|discriminate|]. right. split; [auto|]. right. right. auto.
        -- destruct H as [_ H]. split; [auto|]. constructor; auto.
        -- destruct H as [[H|[H _]] _]; discriminate.
    + assert (Nd : ~ discrete_shape (Map m)) by (intro X; apply Sb in X; discriminate). rewrite Ec in H. cbn [obind] in H. destruct c.
      * pose proof (proj1 Sc eq_refl) as Rs. destruct t; [|injection H as <-; auto|].
        -- apply IH in H; auto. destruct t'.
           ++ destruct H as [[H _]|[[H|H] _]]; [discriminate|discriminate|]. right. split; right; [right; auto|left; auto].
           ++ destruct H as [[H|[H _]] _]; discriminate.
           ++ destruct H as [_ H]. split; [right; split; [auto|left; auto]|]. constructor; auto.
        -- apply IH in H; auto. destruct t'.
           ++ destruct H as [[H _]|[[H|H] _]]; [discriminate|discriminate|]. right. split; [right; right; auto|auto].
           ++ destruct H as [[H|[H _]] _]; discriminate.
           ++ destruct H as [_ H]. split; [auto|]. constructor; auto.
      * assert (Nr : ~ range_shape (Map m)) by (intro X; apply Sc in X; discriminate). apply IH in H; auto. destruct t'.
        -- destruct H as [[-> H]|[A B]]; [left; split; auto; constructor; auto|]. right. split; [destruct A as [A|A]; [auto|right; right; auto]|destruct B as [B|B]; [auto|right; right; auto]].
        -- destruct H as [[->|[-> H]] F]; split; auto; constructor; auto.
        -- destruct H as [[->|[-> H]] F]; split; auto; constructor; auto.
Qed.
Lemma evaluate_total : forall l t, (forall e, In e l -> tidy_map e /\ a_map e) -> exists t', evaluate l t = Ok t'.
Proof.
  induction l as [|n l IH]; intros t H; cbn [evaluate]; [eauto|]. destruct (H n (or_introl eq_refl)) as [Tm (m & ->)]. cbn [is_map throw_unless].
  destruct (IsDiscreteValue_ok m Tm) as (b & -> & _). cbn [obind]. destruct (IsRangeValue_ok m Tm) as (c & -> & _). cbn [obind].
  assert (IH' : forall t, exists t', evaluate l t = Ok t') by (intro u; apply IH; intros e I; apply H; right; exact I).
  destruct b; [|destruct c]; destruct t; eauto.
Qed.

(** ** Values *)
Lemma severity_ok : forall n z, a_map n -> (GetSeverity to_int n = Ok z <-> severity_at to_int n z).
Proof.
  intros n z M. unfold GetSeverity, severity_at. split.
  - intro H. rewrite obind_ok in H. destruct H as (s & E & H). destruct (is_defined s) eqn:Df.
    + rewrite obind_ok in H. destruct H as (z' & F & H). rewrite throw_unless_ok in H. destruct H as [C H]. injection H as ->. right.
      destruct s as [| |t| |]; cbn in F; try discriminate. exists t. rewrite conv_ok in F. split; [apply get_entry; auto; discriminate|]. split; auto. apply Z.leb_le. exact C.
    + injection H as <-. destruct s; try discriminate. left. split; auto. apply get_absent. exact E.
  - intros [[A ->]|(s & E & F & G)].
    + apply absent_undefined in A; auto. rewrite A. reflexivity.
    + apply get_entry in E; [|discriminate]. rewrite E. cbn. rewrite F. cbn. apply Z.leb_le in G. rewrite G. reflexivity.
Qed.
Lemma keys_ok : forall n k ks, a_map n -> (keys_of null_text n k = Ok ks <-> keys_at null_text n k ks).
Proof.
  intros n k ks M. unfold keys_of, keys_at. split.
  - intro H. rewrite obind_ok in H. destruct H as (v & E & H). destruct (is_defined v) eqn:Df.
    + rewrite throw_unless_ok, is_seq_iff in H. destruct H as [C H]. rewrite omap_ok in H. destruct H as (ts & H & <-). right. exists (elements v), ts. rewrite <- C.
      split; [apply get_entry; auto; apply defined_iff; exact Df|]. split; auto. apply each_ok_ok in H. revert H. apply Forall2_iff. intros x y. rewrite as_string_ok. reflexivity.
    + injection H as <-. destruct v; try discriminate. left. split; auto. apply get_absent. exact E.
  - intros [[A ->]|(l & ts & E & F & ->)].
    + apply absent_undefined in A; auto. rewrite A. reflexivity.
    + apply get_entry in E; [|discriminate]. rewrite E. cbn [obind is_defined is_seq throw_unless elements].
      rewrite (proj2 (each_ok_ok _ l ts)) by (revert F; apply Forall2_iff; intros x y; rewrite as_string_ok; reflexivity). reflexivity.
Qed.
Lemma attributes_ok : forall n a, a_map n -> (attributes to_int null_text n = Ok a <-> denotes_attr to_int null_text n a).
Proof.
  intros n a M. unfold attributes, denotes_attr. split.
  - intro H. rewrite obind_ok in H. destruct H as (z & E1 & H). rewrite obind_ok in H. destruct H as (x & E2 & H). rewrite obind_ok in H. destruct H as (y & E3 & H). injection H as <-. cbn.
    rewrite severity_ok in E1 by auto. rewrite keys_ok in E2, E3 by auto. auto.
  - intros (A & B & C). rewrite (proj2 (severity_ok n _ M) A). cbn [obind]. rewrite (proj2 (keys_ok n _ _ M) B). cbn [obind]. rewrite (proj2 (keys_ok n _ _ M) C). destruct a. reflexivity.
Qed.
Lemma load_discrete_ok : forall n v, a_map n -> (load_discrete to_int null_text n = Ok v <-> is_discrete v /\ denotes_value n v).
Proof.
  intros n v M. unfold load_discrete. split.
  - intro H. rewrite obind_ok in H. destruct H as (a & E1 & H). rewrite obind_ok in H. destruct H as (w & E2 & H). rewrite omap_ok in H. destruct H as (s & E3 & <-).
    split; [exact I|]. split; [apply attributes_ok; auto|]. exists w. rewrite as_string_ok in E3. split; auto. apply get_entry; auto. intros ->. destruct E3 as [E3|[E3 _]]; discriminate.
  - destruct v as [a s|]; [|intros [[] _]]. intros [_ [A (w & E & T)]]. rewrite (proj2 (attributes_ok n a M) A). cbn [obind]. pose proof (proj1 E) as N. apply get_entry in E; auto. rewrite E. cbn [obind].
    apply as_string_ok in T. rewrite T. reflexivity.
Qed.
Lemma load_range_ok : forall n v, a_map n -> (load_range to_double to_int null_text Dleb n = Ok v <-> is_range v /\ denotes_value n v).
Proof.
  intros n v M. unfold load_range. split.
  - intro H. rewrite obind_ok in H. destruct H as (r & E1 & H). destruct r as [| | |[|x [|y [|]]]|]; try discriminate.
    rewrite obind_ok in H. destruct H as (lo & E2 & H). rewrite obind_ok in H. destruct H as (hi & E3 & H). rewrite throw_unless_ok in H. destruct H as [C H].
    rewrite obind_ok in H. destruct H as (a & E4 & H). rewrite obind_ok in H. destruct H as (dn & E5 & H). rewrite omap_ok in H. destruct H as (d & E6 & <-).
    split; [exact I|]. split; [apply attributes_ok; auto|]. split; [exists dn; rewrite need_ok in E5; rewrite as_string_ok in E6; auto|].
    exists x, y. rewrite as_double_ok in E2, E3. split; auto. apply get_entry; auto. discriminate.
  - destruct v as [|a d lo hi]; [intros [[] _]|]. intros [_ (A & (dn & E & T) & x & y & F & Nx & Ny & C)]. apply get_entry in F; [|discriminate]. rewrite F. cbn [obind].
    apply as_double_ok in Nx, Ny. rewrite Nx. cbn [obind]. rewrite Ny. cbn [obind]. rewrite C. cbn [throw_unless]. rewrite (proj2 (attributes_ok n a M) A). cbn [obind].
    apply need_ok in E. rewrite E. cbn [obind]. apply as_string_ok in T. rewrite T. reflexivity.
Qed.
Lemma denotes_value_map : forall n v, denotes_value n v -> a_map n.
Proof. intros n [a s|a d lo hi] H. - destruct H as [_ (w & E & _)]. exact (entry_map _ _ _ E). - destruct H as (_ & (w & E & _) & _). exact (entry_map _ _ _ E). Qed.

(** ** Equality of values *)
Hypothesis Dleb_not_nan : forall x y, Dleb x y = true -> Dleb x x = true /\ Dleb y y = true.
Hypothesis Deqb_ok : forall x y, Dleb x x = true -> (Deqb x y = true <-> x = y).
Definition sane_keys (a : rattr) : Prop := NoDup (ra_rules a) /\ NoDup (ra_ids a).
Definition sane (v : rvalue) : Prop := match v with Discrete a _ => sane_keys a | Range a _ lo hi => sane_keys a /\ Dleb lo lo = true /\ Dleb hi hi = true end.
Lemma incl_keys_ok : forall l m, NoDup l -> NoDup m -> (incl_keys l m = true <-> same_keys l m).
Proof.
  intros l m Nl Nm. unfold incl_keys, same_keys. rewrite andb_true_iff, Nat.eqb_eq, forallb_forall.
  assert (X : forall k, existsb (String.eqb k) m = true <-> In k m).
  { intro k. rewrite existsb_exists. split; [intros (x & I & E); apply String.eqb_eq in E; congruence|]. intro I. exists k. split; auto. apply String.eqb_refl. }
  split.
  - intros [E F] k. assert (Inc : incl l m) by (intros x I; apply X; apply F; exact I). split; [apply Inc|]. apply (NoDup_length_incl Nl); auto. lia.
  - intro H. split; [|intros k I; apply X; apply H; exact I].
    assert (A : incl l m) by (intros x I; apply H; exact I). assert (B : incl m l) by (intros x I; apply H; exact I).
    pose proof (NoDup_incl_length Nl A). pose proof (NoDup_incl_length Nm B). lia.
Qed.
Lemma rvalue_eqb_ok : forall v w, sane v -> sane w -> (rvalue_eqb Deqb v w = true <-> same_value v w).
Proof.
  assert (A : forall a b, sane_keys a -> sane_keys b -> (rattr_eqb a b = true <-> same_attr a b)).
  { intros a b [N1 N2] [N3 N4]. unfold rattr_eqb, same_attr. rewrite !andb_true_iff, !incl_keys_ok, Z.eqb_eq by auto. tauto. }
  intros [a s|a d lo hi] [b t|b e lo' hi'] Sv Sw; cbn [sane rvalue_eqb same_value] in *; try (split; [discriminate|tauto]).
  - rewrite andb_true_iff, String.eqb_eq, A by auto. reflexivity.
  - destruct Sv as (S1 & L1 & L2), Sw as (S2 & _). rewrite !andb_true_iff, String.eqb_eq, A, !Deqb_ok by auto. tauto.
Qed.
Lemma same_refl : forall v : rvalue, same_value v v.
Proof. intros [a s|a d lo hi]; cbn; unfold same_attr, same_keys; intuition. Qed.
Lemma same_sym : forall v w : rvalue, same_value v w -> same_value w v.
Proof. intros [a s|a d lo hi] [b t|b e lo' hi'] H; cbn in *; try tauto; unfold same_attr, same_keys in *; [destruct H as [(A & B & C) E]|destruct H as [(A & B & C) (E & F & G)]]; subst; repeat split; auto; try (apply B; auto); try (apply C; auto). Qed.
Lemma denotes_sane : forall n v, denotes_value n v -> sane v.
Proof.
  assert (A : forall n a, denotes_attr to_int null_text n a -> sane_keys a).
  { intros n a (_ & B & C). split; [destruct B as [[_ ->]|(l & ts & _ & _ & ->)]|destruct C as [[_ ->]|(l & ts & _ & _ & ->)]]; try constructor; apply NoDup_nodup. }
  intros n [a s|a d lo hi] H; cbn.
  - destruct H as [H _]. eauto.
  - destruct H as (H & _ & x & y & _ & _ & _ & L). split; [eauto|]. exact (Dleb_not_nan _ _ L).
Qed.
Lemma values_sane : forall l vs, Forall2 denotes_value l vs -> Forall sane vs.
Proof. intros l vs F. induction F as [|x y l vs H F IH]; constructor; [exact (denotes_sane _ _ H)|exact IH]. Qed.
Lemma register_ok : forall t vs r r', Forall sane vs ->
  (register Deqb t vs r = Ok r' <-> r' = (r ++ [(t, vs)])%list /\ ~ In t (map fst r) /\ vs <> [] /\ ForallOrdPairs (fun v w => ~ same_value v w) vs).
Proof.
  intros t vs r r' Sn. unfold register. rewrite !throw_unless_ok, negb_true_iff, nonempty_iff. rewrite Forall_forall in Sn.
  rewrite (count_pairs (rvalue_eqb Deqb) vs).
  - assert (P : ForallOrdPairs (fun v w => rvalue_eqb Deqb v w = false) vs <-> ForallOrdPairs (fun v w => ~ same_value v w) vs).
    { apply ForallOrdPairs_iff. intros x y I J. rewrite <- rvalue_eqb_ok, not_true_iff_false by auto. reflexivity. }
    rewrite P. assert (Q : mhas String.eqb t r = false <-> ~ In t (map fst r)) by (rewrite <- (mhas_in _ seqb_ok), not_true_iff_false; reflexivity). rewrite Q.
    split; [intros (A & B & C & E); injection E as <-; auto|]. intros (-> & A & B & C). auto.
  - intros x I. apply rvalue_eqb_ok; auto. apply same_refl.
  - intros x y I J. rewrite !rvalue_eqb_ok by auto. apply same_sym.
Qed.

(** ** Types *)
Notation denotes_type := (denotes_type to_double to_int null_text Dleb).
Lemma values_ok : forall (f : yaml -> outcome rvalue) (P : rvalue -> Prop) l vs, (forall e, In e l -> a_map e) ->
  (forall n v, a_map n -> (f n = Ok v <-> P v /\ denotes_value n v)) -> (each_ok f l = Ok vs <-> Forall P vs /\ Forall2 denotes_value l vs).
Proof.
  intros f P l vs M H. rewrite each_ok_ok. revert vs. induction l as [|e l IH]; intro vs.
  - split; [intro F; inversion F; auto|intros [_ F]; inversion F; constructor].
  - assert (IH' := IH (fun e I => M e (or_intror I))). split.
    + intro F. inversion F as [|x y l' m E G]; subst. apply H in E; [|apply M; left; auto]. apply IH' in G. destruct E, G. split; constructor; auto.
    + intros [F G]. inversion G as [|x y l' m E G']; subst. inversion F; subst. constructor; [apply H; auto; apply M; left; auto|]. apply IH'. auto.
Qed.
Lemma evaluate_maps : forall l t t', evaluate l t = Ok t' -> t' <> Unknown -> forall e, In e l -> a_map e.
Proof.
  induction l as [|n l IH]; intros t t' H N e I; [destruct I|]. cbn [evaluate] in H. rewrite throw_unless_ok, is_map_iff in H. destruct H as [M H].
  destruct I as [<-|I]; [exact M|]. rewrite obind_ok in H. destruct H as (b & _ & H). destruct b.
  - destruct t; [eapply IH; eauto|eapply IH; eauto|congruence].
  - rewrite obind_ok in H. destruct H as (c & _ & H). destruct c; [destruct t; [eapply IH; eauto|congruence|eapply IH; eauto]|eapply IH; eauto].
Qed.
Lemma load_types_ok : forall l r r', NoDup (map fst r) -> tidy_types l ->
  (load_types to_double to_int null_text Dleb Deqb l r = Ok r' <->
   exists r2, r' = (r ++ r2)%list /\ Forall2 (fun p e => ident (fst p) (fst e) /\ denotes_type (snd p) (snd e)) l r2 /\ NoDup (map fst r')).
Proof.
  intros l. induction l as [|[kn vn] l IH]; intros r r' Nr T.
  - cbn [load_types]. split.
    + intros [= <-]. exists []. rewrite app_nil_r. auto.
    + intros (r2 & -> & F & _). inversion F. rewrite app_nil_r. reflexivity.
  - assert (T' : tidy_types l) by (intros p l' e I; apply (T p); right; exact I).
    assert (Key : forall (f : yaml -> outcome rvalue) (P : rvalue -> Prop) l0, (forall n v, a_map n -> (f n = Ok v <-> P v /\ denotes_value n v)) -> (forall e, In e l0 -> a_map e) ->
      (obind (as_id null_text kn) (fun id => obind (each_ok f l0) (fun vs => obind (register Deqb id vs r) (load_types to_double to_int null_text Dleb Deqb l))) = Ok r' <->
       exists i vs r2, ident kn i /\ Forall P vs /\ Forall2 denotes_value l0 vs /\ vs <> [] /\ ForallOrdPairs (fun v w => ~ same_value v w) vs /\
         r' = (r ++ (i, vs) :: r2)%list /\ Forall2 (fun p e => ident (fst p) (fst e) /\ denotes_type (snd p) (snd e)) l r2 /\ NoDup (map fst r'))).
    { intros f P l0 Hf M.
      assert (Sn : forall vs, Forall2 denotes_value l0 vs -> Forall sane vs) by (intros vs F; exact (values_sane l0 vs F)).
      assert (Nd1 : forall i vs, ~ In i (map fst r) -> NoDup (map fst (r ++ [(i, vs)]))).
      { intros i vs N. rewrite map_app. cbn. apply (NoDup_Add (a := i) (l := map fst r)); [rewrite <- (app_nil_r (map fst r)) at 1; apply Add_app|auto]. }
      split.
      - intro H. rewrite obind_ok in H. destruct H as (i & E1 & H). rewrite obind_ok in H. destruct H as (vs & E2 & H). rewrite obind_ok in H. destruct H as (r1 & E3 & H).
        rewrite as_id_ok in E1. apply (values_ok f P l0 vs M Hf) in E2. destruct E2 as [FP Fd]. apply register_ok in E3; [|auto]. destruct E3 as (-> & N & Ne & Fo).
        apply IH in H; [|apply Nd1; exact N|exact T']. destruct H as (r2 & -> & F & N'). rewrite <- app_assoc in *. exists i, vs, r2. auto 9.
      - intros (i & vs & r2 & E1 & FP & Fd & Ne & Fo & -> & F & N). rewrite <- as_id_ok in E1. rewrite E1. cbn [obind].
        rewrite (proj2 (values_ok f P l0 vs M Hf) (conj FP Fd)). cbn [obind].
        assert (Ni : ~ In i (map fst r)) by (rewrite map_app in N; cbn in N; apply NoDup_remove_2 in N; rewrite in_app_iff in N; tauto).
        rewrite (proj2 (register_ok i vs r (r ++ [(i, vs)])%list (Sn vs Fd))) by auto. cbn [obind].
        apply IH; [apply Nd1; exact Ni|exact T'|]. exists r2. rewrite <- app_assoc. auto. }
    cbn [load_types]. rewrite obind_ok. split.
    + intros (t & Et & H). unfold EvaluateRuleType in Et. rewrite !throw_unless_ok, is_seq_iff in Et. destruct Et as (Sq & _ & Et).
      assert (Tv : forall e, In e (elements vn) -> tidy_map e) by (intros e I; apply (T (kn, vn) (elements vn)); auto; left; auto).
      pose proof (evaluate_ok (elements vn) Unknown Tv t Et) as Sh. destruct t; [discriminate| |].
      * apply (Key _ _ _ load_discrete_ok) in H; [|eapply evaluate_maps; eauto; discriminate].
        destruct H as (i & vs & r2 & E1 & FP & Fd & Ne & Fo & -> & F & N). exists ((i, vs) :: r2). split; auto. split; auto. constructor; auto. cbn. split; auto.
        exists (elements vn). split; auto. split; auto. split; auto. left. destruct Sh as [[?|[_ Ex]] Fr]; [discriminate|auto].
      * apply (Key _ _ _ load_range_ok) in H; [|eapply evaluate_maps; eauto; discriminate].
        destruct H as (i & vs & r2 & E1 & FP & Fd & Ne & Fo & -> & F & N). exists ((i, vs) :: r2). split; auto. split; auto. constructor; auto. cbn. split; auto.
        exists (elements vn). split; auto. split; auto. split; auto. right. destruct Sh as [[?|[_ Ex]] Fr]; [discriminate|auto].
    + intros (r2 & -> & F & N). inversion F as [|p [i vs] l' r3 [Hi (l0 & E & Fd & Fo & Hd)] F']; subst. cbn [fst snd] in Hi, E, Fd, Fo, Hd. subst vn.
      assert (Tv : forall e, In e l0 -> tidy_map e) by (intros e I; apply (T (kn, Seq l0) l0); auto; left; auto).
      assert (M : forall e, In e l0 -> a_map e).
      { clear -Fd. induction Fd as [|x y l m H F IH]; [intros e []|]. intros e [<-|I]; auto. exact (denotes_value_map _ _ H). }
      destruct (evaluate_total l0 Unknown) as (t & Et); [auto|]. exists t.
      assert (Ne : l0 <> []) by (intros ->; destruct Hd as [(_ & Ex & _)|(_ & Ex & _)]; inversion Ex).
      assert (Nvs : vs <> []) by (intros ->; inversion Fd; congruence).
      split.
      * unfold EvaluateRuleType. cbn [is_seq throw_unless ysize elements]. rewrite (proj2 (nonempty_iff l0) Ne). exact Et.
      * pose proof (evaluate_ok l0 Unknown Tv t Et) as Sh. cbn [elements].
        destruct Hd as [(FP & Ex & Fr)|(FP & Ex & Fr)]; destruct t.
        -- exfalso. rewrite Exists_exists in Ex. destruct Ex as (e & I & Ds). destruct Sh as [[_ Fn]|[_ [?|Ex]]]; [|discriminate|].
           ++ rewrite Forall_forall in Fn. destruct (Fn e I). tauto.
           ++ rewrite Exists_exists in Ex. destruct Ex as (e' & I' & Rs). rewrite Forall_forall in Fr. exact (Fr e' I' Rs).
        -- apply (Key _ _ _ load_discrete_ok M). exists i, vs, r3. auto 9.
        -- exfalso. rewrite Exists_exists in Ex. destruct Ex as (e & I & Ds). destruct Sh as [_ Fn]. rewrite Forall_forall in Fn. exact (Fn e I Ds).
        -- exfalso. rewrite Exists_exists in Ex. destruct Ex as (e & I & Ds). destruct Sh as [[_ Fn]|[[?|Ex] _]]; [|discriminate|].
           ++ rewrite Forall_forall in Fn. destruct (Fn e I). tauto.
           ++ rewrite Exists_exists in Ex. destruct Ex as (e' & I' & Rs). rewrite Forall_forall in Fr. exact (Fr e' I' Rs).
        -- exfalso. rewrite Exists_exists in Ex. destruct Ex as (e & I & Ds). destruct Sh as [_ Fn]. rewrite Forall_forall in Fn. exact (Fn e I Ds).
        -- apply (Key _ _ _ load_range_ok M). exists i, vs, r3. auto 9.
Qed.
Lemma load_registry_ok : forall n r, tidy_registry n ->
  (LoadRuleRegistry to_double to_int null_text Dleb Deqb n = Ok r <-> denotes_registry to_double to_int null_text Dleb n r).
Proof.
  intros n r T. unfold LoadRuleRegistry, denotes_registry. split.
  - intro H. rewrite throw_unless_ok in H. destruct H as [_ H]. rewrite obind_ok in H. destruct H as (m & E & H). rewrite throw_unless_ok, is_map_iff in H. destruct H as [(l & ->) H].
    rewrite need_ok in E. cbn [pairs] in H. apply load_types_ok in H; [|constructor|apply T; exact E]. destruct H as (r2 & -> & F & N). rewrite app_nil_l in *. split; eauto.
  - intros [(l & E & F) N]. rewrite (proj2 (is_map_iff n) (entry_map _ _ _ E)). cbn [throw_unless]. pose proof E as E'. apply need_ok in E'. rewrite E'. cbn [obind is_map throw_unless pairs].
    apply load_types_ok; [constructor|apply T; exact E|]. exists r. auto.
Qed.
End Registry.
