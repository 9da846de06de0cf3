(** Proofs about rule states, registries, filters and manual state providers. *)
From Coq Require Import List ZArith QArith Bool Arith Lia Permutation.
From Coq Require Import Floats.SpecFloat.
From Verif Require Import Base Maps Regions_Model Regions_Spec Regions_Proofs Scalar_Spec Scalar_Proofs Hierarchy_Proofs
  RuleStates_Model RuleStates_Spec.
Import ListNotations.
Local Open Scope nat_scope.

(** ** Strings *)
Lemma str_eqb_ok a b : str_eqb a b = true <-> a = b.
Proof.
  revert b. induction a as [|x a IH]; intros [|y b]; cbn; try (split; congruence).
  rewrite andb_true_iff, Nat.eqb_eq, IH. split; [intros [-> ->]; auto|]. intro H; inversion H; auto.
Qed.

Lemma str_ltb_lt a : forall b, str_ltb a b = true <-> str_lt a b.
Proof.
  induction a as [|x a IH]; intros [|y b].
  - split; [discriminate|]. intros (p & [(y & b' & E & H)|(x & a' & y & b' & H & _)]); destruct p; discriminate.
  - split; auto. intros _. exists []. left. exists y, b. auto.
  - split; [discriminate|]. intros (p & [(z & b' & E & H)|(z & a' & w & b' & _ & H & _)]); destruct p; discriminate.
  - cbn [str_ltb]. rewrite orb_true_iff, andb_true_iff, Nat.ltb_lt, Nat.eqb_eq, IH. split.
    + intros [H|[-> (p & [(z & b' & -> & ->)|(z & a' & w & b' & -> & -> & H)])]].
      * exists []. right. exists x, a, y, b. auto.
      * exists (y :: p). left. exists z, b'. auto.
      * exists (y :: p). right. exists z, a', w, b'. auto.
    + intros (p & [(z & b' & <- & H)|(z & a' & w & b' & Ha & Hb & H)]).
      * inversion H; subst. right. split; auto. exists a. left. eauto.
      * destruct p as [|c p]; cbn in Ha, Hb; inversion Ha; inversion Hb; subst; auto. right. split; auto.
        exists p. right. exists z, a', w, b'. auto.
Qed.
Lemma str_ltb_irrefl a : str_ltb a a = false.
Proof. induction a as [|x a IH]; cbn [str_ltb]; auto. rewrite Nat.ltb_irrefl, IH, andb_false_r. reflexivity. Qed.
Lemma str_ltb_trans a : forall b c, str_ltb a b = true -> str_ltb b c = true -> str_ltb a c = true.
Proof.
  induction a as [|x a IH]; intros [|y b] [|z c] H1 H2; cbn [str_ltb] in *; try discriminate; auto.
  apply orb_true_iff in H1, H2. rewrite andb_true_iff, Nat.ltb_lt, Nat.eqb_eq in *.
  apply orb_true_iff. rewrite andb_true_iff, Nat.ltb_lt, Nat.eqb_eq in *.
  destruct H1 as [H1|[-> H1]], H2 as [H2|[-> H2]]; auto; [left; lia|]. right. split; auto. eapply IH; eauto.
Qed.
Lemma str_ltb_total a : forall b, str_ltb a b = false -> str_ltb b a = false -> a = b.
Proof.
  induction a as [|x a IH]; intros [|y b] H1 H2; cbn [str_ltb] in *; try discriminate; auto.
  apply orb_false_iff in H1, H2. destruct H1 as [H1 H1'], H2 as [H2 H2'].
  apply Nat.ltb_ge in H1, H2. assert (x = y) by lia. subst y. rewrite Nat.eqb_refl in *. cbn [andb] in *. f_equal. auto.
Qed.

(** ** Strict weak orders *)
Section Swo.
Context {A : Type}.
Variable P : A -> Prop.

Definition lexb (l1 l2 : A -> A -> bool) (a b : A) : bool := if l1 a b then true else if l1 b a then false else l2 a b.

Lemma swo_eq_lt lt a b c : strict_weak_order P lt -> P a -> P b -> P c ->
  lt a b = false -> lt b a = false -> (lt b c = true -> lt a c = true) /\ (lt c b = true -> lt c a = true).
Proof.
  intros (I & As & T & W) Pa Pb Pc E1 E2. split; intro H.
  - destruct (lt a c) eqn:E; auto. exfalso. destruct (lt c a) eqn:F.
    + assert (lt b a = true) by (apply (T b c a); auto). congruence.
    + destruct (W b a c) as [X _]; auto. congruence.
  - destruct (lt c a) eqn:E; auto. exfalso. destruct (lt a c) eqn:F.
    + assert (lt a b = true) by (apply (T a c b); auto). congruence.
    + destruct (W b a c) as [_ X]; auto. congruence.
Qed.

Lemma lex_swo l1 l2 : strict_weak_order P l1 -> strict_weak_order P l2 -> strict_weak_order P (lexb l1 l2).
Proof.
  intros S1 S2. pose proof S1 as (I1 & A1 & T1 & W1). pose proof S2 as (I2 & A2 & T2 & W2). unfold lexb.
  split; [|split; [|split]].
  - intros a Pa. rewrite (I1 a Pa). auto.
  - intros a b Pa Pb. destruct (l1 a b) eqn:E.
    + intros _. rewrite (A1 a b Pa Pb E). reflexivity.
    + destruct (l1 b a) eqn:F; [discriminate|]. auto.
  - intros a b c Pa Pb Pc.
    destruct (l1 a b) eqn:Eab.
    + intros _. destruct (l1 b c) eqn:Ebc.
      * intros _. rewrite (T1 a b c); auto.
      * destruct (l1 c b) eqn:Ecb; [discriminate|]. intros _.
        rewrite (proj2 (swo_eq_lt l1 c b a S1 Pc Pb Pa Ecb Ebc) Eab). reflexivity.
    + destruct (l1 b a) eqn:Eba; [discriminate|]. intro H. destruct (l1 b c) eqn:Ebc.
      * intros _. rewrite (proj1 (swo_eq_lt l1 a b c S1 Pa Pb Pc Eab Eba) Ebc). reflexivity.
      * destruct (l1 c b) eqn:Ecb; [discriminate|]. intro H'. destruct (W1 a b c) as [X Y]; auto. rewrite X, Y. eauto.
  - intros a b c Pa Pb Pc H1 H2 H3 H4.
    destruct (l1 a b) eqn:Eab; [discriminate|]. destruct (l1 b a) eqn:Eba; [discriminate|].
    destruct (l1 b c) eqn:Ebc; [discriminate|]. destruct (l1 c b) eqn:Ecb; [discriminate|].
    destruct (W1 a b c) as [X Y]; auto. rewrite X, Y. eauto.
Qed.
End Swo.

Lemma ext_le_trans u v w : ext_le u v -> ext_le v w -> ext_le u w.
Proof. destruct u, v, w; cbn; auto; try tauto; lia. Qed.
Lemma ext_le_antisym u v : ext_le u v -> ext_le v u -> u = v.
Proof. destruct u, v; cbn; try tauto; auto. intros; f_equal; lia. Qed.

Lemma number_value d : number d -> exists u, value d = Some u.
Proof. intros [_ H]. destruct (value d); eauto. congruence. Qed.

Lemma SFltb_lt a b : number a -> number b -> (SFltb a b = true <-> lt_double a b).
Proof.
  intros [A1 A2] [B1 B2]. unfold SFltb. rewrite (SFcompare_value a b A1 B1). unfold opt_cmp, lt_double.
  destruct (value a) as [u|]; [|congruence]. destruct (value b) as [v|]; [|congruence].
  pose proof (ext_cmp_lt u v) as E. destruct (ext_cmp u v).
  - split; [discriminate|]. intros (u' & v' & Hu & Hv & H). inversion Hu; inversion Hv; subst. apply E in H. discriminate.
  - split; auto. intros _. exists u, v. repeat split; auto. apply E; auto.
  - split; [discriminate|]. intros (u' & v' & Hu & Hv & H). inversion Hu; inversion Hv; subst. apply E in H. discriminate.
Qed.
Lemma SFltb_false a b : number a -> number b -> (SFltb a b = false <-> exists u v, value a = Some u /\ value b = Some v /\ ext_le v u).
Proof.
  intros A B. destruct (number_value a A) as [u U], (number_value b B) as [v V].
  destruct (SFltb a b) eqn:E.
  - apply SFltb_lt in E; auto. destruct E as (u' & v' & Hu & Hv & H). split; [discriminate|].
    intros (u2 & v2 & Hu2 & Hv2 & H2). congruence.
  - split; auto. intros _. exists u, v. repeat split; auto.
    destruct (ext_le_total v u) as [|H]; auto.
    assert (N : ~ SFltb a b = true) by congruence. rewrite (SFltb_lt a b A B) in N.
    assert (~ ~ ext_le v u) by (intro X; apply N; exists u, v; auto).
    destruct v, u; cbn in *; auto; try tauto; lia.
Qed.

Lemma SFltb_swo {A} (f : A -> double) (P : A -> Prop) : (forall a, P a -> number (f a)) -> strict_weak_order P (fun a b => SFltb (f a) (f b)).
Proof.
  intro F. split; [|split; [|split]].
  - intros a Pa. apply SFltb_false; auto. destruct (number_value _ (F a Pa)) as [u U]. exists u, u. repeat split; auto. apply ext_le_refl.
  - intros a b Pa Pb H. apply SFltb_lt in H; auto. destruct H as (u & v & U & V & H). apply SFltb_false; auto.
    exists v, u. repeat split; auto. destruct (ext_le_total u v) as [|X]; auto; contradiction.
  - intros a b c Pa Pb Pc H1 H2. apply SFltb_lt in H1; auto. apply SFltb_lt in H2; auto. apply SFltb_lt; auto.
    destruct H1 as (u & v & U & V & H1), H2 as (v' & w & V' & W & H2). assert (v' = v) by congruence. subst v'.
    exists u, w. repeat split; auto. intro X. apply H2. apply (ext_le_trans w u v); auto.
    destruct (ext_le_total u v) as [|Y]; auto; contradiction.
  - intros a b c Pa Pb Pc H1 H2 H3 H4. apply SFltb_false in H1, H2, H3, H4; auto.
    destruct H1 as (u & v & U & V & H1), H2 as (v1 & u1 & V1 & U1 & H2), H3 as (v2 & w & V2 & W & H3), H4 as (w1 & v3 & W1 & V3 & H4).
    assert (v1 = v) by congruence. assert (v2 = v) by congruence. assert (v3 = v) by congruence.
    assert (u1 = u) by congruence. assert (w1 = w) by congruence. subst.
    split; apply SFltb_false; auto.
    + exists u, w. repeat split; auto. apply (ext_le_trans w v u); auto.
    + exists w, u. repeat split; auto. apply (ext_le_trans u v w); auto.
Qed.

Lemma Zltb_swo {A} (f : A -> Z) (P : A -> Prop) : strict_weak_order P (fun a b => Z.ltb (f a) (f b)).
Proof. split; [|split; [|split]]; intros; rewrite ?Z.ltb_lt, ?Z.ltb_ge in *; try split; rewrite ?Z.ltb_lt, ?Z.ltb_ge in *; lia. Qed.
Lemma str_swo {A} (f : A -> str) (P : A -> Prop) : strict_weak_order P (fun a b => str_ltb (f a) (f b)).
Proof.
  split; [|split; [|split]].
  - intros. apply str_ltb_irrefl.
  - intros a b _ _ H. destruct (str_ltb (f b) (f a)) eqn:E; auto.
    rewrite <- (str_ltb_irrefl (f a)). symmetry. eapply str_ltb_trans; eauto.
  - intros. eapply str_ltb_trans; eauto.
  - intros a b c _ _ _ H1 H2 H3 H4. rewrite (str_ltb_total _ _ H1 H2). auto.
Qed.

Lemma range_ltb_swo : strict_weak_order range_number range_ltb.
Proof.
  apply (lex_swo range_number (fun a b => Z.ltb (severity (rv_state a)) (severity (rv_state b)))); [apply Zltb_swo|].
  apply (lex_swo range_number (fun a b => str_ltb (rv_desc a) (rv_desc b))); [apply str_swo|].
  assert (E : strict_weak_order range_number (lexb (fun a b => SFltb (rv_min a) (rv_min b)) (fun a b => SFltb (rv_max a) (rv_max b)))).
  { apply lex_swo; apply SFltb_swo; intros a [H1 H2]; auto. }
  unfold lexb in E.
  assert (X : forall a b, (if SFltb (rv_min a) (rv_min b) then true else if SFltb (rv_min b) (rv_min a) then false
     else if SFltb (rv_max a) (rv_max b) then true else false) =
    (if SFltb (rv_min a) (rv_min b) then true else if SFltb (rv_min b) (rv_min a) then false else SFltb (rv_max a) (rv_max b))).
  { intros a b. destruct (SFltb (rv_min a) (rv_min b)), (SFltb (rv_min b) (rv_min a)), (SFltb (rv_max a) (rv_max b)); reflexivity. }
  destruct E as (E1 & E2 & E3 & E4). split; [|split; [|split]].
  - intros a Pa. rewrite X. apply E1; auto.
  - intros a b Pa Pb. rewrite !X. apply E2; auto.
  - intros a b c Pa Pb Pc. rewrite !X. apply E3; auto.
  - intros a b c Pa Pb Pc. rewrite !X. apply E4; auto.
Qed.

Lemma range_ltb_before a b : range_number a -> range_number b -> (range_ltb a b = true <-> range_before a b).
Proof.
  intros [A1 A2] [B1 B2]. unfold range_ltb, range_before.
  destruct (Z.ltb_spec (severity (rv_state a)) (severity (rv_state b))); [split; auto|].
  destruct (Z.ltb_spec (severity (rv_state b)) (severity (rv_state a))).
  { split; [discriminate|]. intros [H1|[H1 _]]; lia. }
  assert (Es : severity (rv_state a) = severity (rv_state b)) by lia.
  destruct (str_ltb (rv_desc a) (rv_desc b)) eqn:E1.
  { apply str_ltb_lt in E1. split; auto. }
  destruct (str_ltb (rv_desc b) (rv_desc a)) eqn:E2.
  { split; [discriminate|]. intros [H1|[_ [H1|[H1 _]]]]; [lia| |].
    - apply str_ltb_lt in H1. congruence.
    - rewrite H1, str_ltb_irrefl in E2. discriminate. }
  assert (Ed : rv_desc a = rv_desc b) by (apply str_ltb_total; auto).
  assert (Nd : ~ str_lt (rv_desc a) (rv_desc b)) by (rewrite <- str_ltb_lt; congruence).
  destruct (SFltb (rv_min a) (rv_min b)) eqn:F1.
  { apply SFltb_lt in F1; auto. split; auto 6. }
  assert (Nm : ~ lt_double (rv_min a) (rv_min b)) by (rewrite <- SFltb_lt by assumption; congruence).
  destruct (SFltb (rv_min b) (rv_min a)) eqn:F2.
  { apply SFltb_lt in F2; auto. destruct F2 as (u & v & U & V & F2). split; [discriminate|].
    intros [H1|[_ [H1|[_ [H1|[H1 _]]]]]]; try contradiction; [lia|].
    rewrite U, V in H1. inversion H1; subst. destruct F2. apply ext_le_refl. }
  assert (Em : value (rv_min a) = value (rv_min b)).
  { apply SFltb_false in F1; auto. apply SFltb_false in F2; auto.
    destruct F1 as (u & v & U & V & F1), F2 as (v' & u' & V' & U' & F2). rewrite U, V. f_equal.
    apply ext_le_antisym; congruence. }
  destruct (SFltb (rv_max a) (rv_max b)) eqn:F3.
  { apply SFltb_lt in F3; auto. split; auto 10. }
  assert (Nx : ~ lt_double (rv_max a) (rv_max b)) by (rewrite <- SFltb_lt by assumption; congruence).
  split; [discriminate|]. intros [H1|[_ [H1|[_ [H1|[_ H1]]]]]]; try contradiction. lia.
Qed.

(** ** State equality *)
Lemma vmem_in x l : vmem x l = true <-> In x l.
Proof.
  unfold vmem. rewrite existsb_exists. split; [intros (y & H & E); apply Nat.eqb_eq in E; subst; auto|].
  intro H. exists x. rewrite Nat.eqb_refl. auto.
Qed.

Lemma compare_groups_sub a b : map_groups a -> map_groups b -> (compare_groups a b = true <-> sub_groups a b).
Proof.
  intros Na Nb. unfold compare_groups. rewrite andb_true_iff, Nat.eqb_eq, forallb_forall. split.
  - intros [L F].
    assert (I : incl (map fst a) (map fst b)).
    { intros k H. apply in_map_iff in H. destruct H as ([k' v] & E & H). cbn in E; subst k'.
      specialize (F _ H). cbn [fst snd] in F. destruct (mfind str_eqb k b) as [w|] eqn:M; [|discriminate].
      apply (mfind_in str_eqb str_eqb_ok) in M. apply in_map_iff. exists (k, w). auto. }
    split.
    + intro k. split; [apply I|]. apply (NoDup_length_incl Na); [rewrite !map_length; lia|exact I].
    + intros k v w Hv Hw x Hx. specialize (F _ Hv). cbn [fst snd] in F.
      rewrite (mfind_nodup str_eqb str_eqb_ok k w b Nb Hw) in F. rewrite forallb_forall in F. apply vmem_in. auto.
  - intros [K S]. split.
    + rewrite <- (map_length fst a), <- (map_length fst b). apply Nat.le_antisymm; apply NoDup_incl_length; auto; intros k H; apply K; auto.
    + intros [k v] H. cbn [fst snd].
      assert (Hk : In k (map fst b)) by (apply K; apply in_map_iff; exists (k, v); auto).
      destruct (mfind str_eqb k b) as [w|] eqn:M; [|apply (mfind_none str_eqb str_eqb_ok) in M; contradiction].
      apply (mfind_in str_eqb str_eqb_ok) in M. apply forallb_forall. intros x Hx. apply vmem_in. eapply S; eauto.
Qed.

Lemma state_eqb_sub a b : map_state a -> map_state b -> (state_eqb a b = true <-> sub_state a b).
Proof.
  intros [A1 A2] [B1 B2]. unfold state_eqb, sub_state. rewrite !andb_true_iff, Z.eqb_eq, !compare_groups_sub by assumption. tauto.
Qed.

Lemma sub_groups_refl a : map_groups a -> sub_groups a a.
Proof.
  intro N. split; [tauto|]. intros k v w Hv Hw x Hx.
  apply (mfind_nodup str_eqb str_eqb_ok k v a N) in Hv. apply (mfind_nodup str_eqb str_eqb_ok k w a N) in Hw. congruence.
Qed.
Lemma sub_groups_trans a b c : sub_groups a b -> sub_groups b c -> sub_groups a c.
Proof.
  intros [K1 S1] [K2 S2]. split; [intro k; rewrite K1; apply K2|]. intros k v w Hv Hw x Hx.
  assert (Hk : In k (map fst b)) by (apply K1; apply in_map_iff; exists (k, v); auto).
  apply in_map_iff in Hk. destruct Hk as ([k' u] & E & Hu). cbn in E; subst k'. eapply S2; eauto.
Qed.
Lemma sub_groups_same a b : sub_groups a b -> sub_groups b a -> same_groups a b.
Proof. intros [K1 S1] [K2 S2]. split; auto. intros k v w Hv Hw x. split; [eapply S1|eapply S2]; eauto. Qed.
Lemma same_groups_sub a b : same_groups a b -> sub_groups a b /\ sub_groups b a.
Proof.
  intros [K S]. split; split; auto; try (intro k; symmetry; apply K); intros k v w Hv Hw x Hx; [apply (S k v w)|apply (S k w v)]; auto.
Qed.
Lemma sub_groups_sizes a b : same_sizes a b -> sub_groups a b -> same_groups a b.
Proof.
  intros Z [K S]. split; auto. intros k v w Hv Hw x. destruct (Z k v w Hv Hw) as (N1 & N2 & L). split; [eapply S; eauto|].
  apply (NoDup_length_incl N1); [lia|]. intros y Hy. eapply S; eauto.
Qed.
Lemma sub_state_refl a : map_state a -> sub_state a a.
Proof. intros [H1 H2]. split; auto. split; apply sub_groups_refl; auto. Qed.
Lemma sub_state_trans a b c : sub_state a b -> sub_state b c -> sub_state a c.
Proof. intros (H1 & H2 & H3) (K1 & K2 & K3). split; [congruence|]. split; eapply sub_groups_trans; eauto. Qed.
Lemma sub_state_same a b : sub_state a b -> sub_state b a -> same_state a b.
Proof. intros (H1 & H2 & H3) (K1 & K2 & K3). split; auto. split; apply sub_groups_same; auto. Qed.
Lemma same_state_sub a b : same_state a b -> sub_state a b /\ sub_state b a.
Proof.
  intros (H1 & H2 & H3). apply same_groups_sub in H2, H3. destruct H2, H3. split; split; auto.
Qed.
Lemma sub_state_sizes a b : same_sizes_state a b -> sub_state a b -> same_state a b.
Proof. intros [Z1 Z2] (H1 & H2 & H3). split; auto. split; apply sub_groups_sizes; auto. Qed.

(** ** Duplicate detection *)
Section Dup.
Context {A : Type}.
Variable eqb : A -> A -> bool.

Lemma filter_nil_iff (f : A -> bool) l : length (filter f l) = 0 <-> forall x, In x l -> f x = false.
Proof.
  induction l as [|y l IH]; cbn; [split; auto; intros _ x []|]. destruct (f y) eqn:E; cbn.
  - split; [discriminate|]. intro H. rewrite (H y) in E; [discriminate|auto].
  - rewrite IH. split; intros H x; [intros [<-|Hx]; auto|auto].
Qed.

Lemma count_split l1 x l2 : count_eq eqb x (l1 ++ x :: l2) =
  length (filter (fun y => eqb y x) l1) + (if eqb x x then 1 else 0) + length (filter (fun y => eqb y x) l2).
Proof. unfold count_eq. rewrite filter_app, app_length. cbn. destruct (eqb x x); cbn; lia. Qed.

Lemma nth_error_split_at (l : list A) i x : nth_error l i = Some x -> exists l1 l2, l = l1 ++ x :: l2 /\ length l1 = i.
Proof. apply nth_error_split. Qed.

Lemma count_perm x l l' : Permutation l l' -> count_eq eqb x l = count_eq eqb x l'.
Proof.
  unfold count_eq. induction 1 as [|y l l' H IH|y z l|l l' l'' H1 IH1 H2 IH2]; cbn; auto.
  - destruct (eqb y x); cbn; lia.
  - destruct (eqb y x), (eqb z x); reflexivity.
  - congruence.
Qed.
End Dup.

(** Restricting the comparison to the elements of a list. *)
Lemma no_duplicates_in {A} (eqb : A -> A -> bool) (R : A -> A -> Prop) l :
  (forall x y, In x l -> In y l -> (eqb x y = true <-> R x y)) -> (forall x y, In x l -> In y l -> R y x -> R x x) ->
  (forall x, In x l -> Nat.eqb (count_eq eqb x l) 1 = true) <-> (forall x, In x l -> R x x) /\ pairwise_apart R l.
Proof.
  intros H Rp. rewrite <- forallb_forall.
  change (no_duplicates eqb l = true <-> (forall x, In x l -> R x x) /\ pairwise_apart R l).
  split.
  - intro N. unfold no_duplicates in N. rewrite forallb_forall in N.
    assert (Rf : forall x, In x l -> R x x).
    { intros x Hx. specialize (N x Hx). apply Nat.eqb_eq in N. unfold count_eq in N.
      destruct (filter (fun y => eqb y x) l) as [|y f] eqn:F; [discriminate|].
      assert (Hy : In y (filter (fun y => eqb y x) l)) by (rewrite F; left; auto). apply filter_In in Hy.
      destruct Hy as [Hy E]. apply (Rp x y); auto. apply H; auto. }
    split; auto. intros i j x y Hi Hj Nij E.
    assert (Hx : In x l) by (eapply nth_error_In; eauto). assert (Hy : In y l) by (eapply nth_error_In; eauto).
    apply (H x y Hx Hy) in E. pose proof (proj2 (H y y Hy Hy) (Rf y Hy)) as Ry.
    destruct (nth_error_split_at l j y Hj) as (l1 & l2 & El & Ll). specialize (N y Hy).
    rewrite El in N. rewrite count_split, Ry in N. apply Nat.eqb_eq in N.
    assert (F1 : length (filter (fun z => eqb z y) l1) = 0) by lia.
    assert (F2 : length (filter (fun z => eqb z y) l2) = 0) by lia.
    rewrite filter_nil_iff in F1, F2.
    rewrite El in Hi. destruct (Nat.lt_trichotomy i j) as [L|[L|L]]; [|congruence|].
    + rewrite nth_error_app1 in Hi by lia. apply nth_error_In in Hi. rewrite (F1 x Hi) in E. discriminate.
    + rewrite nth_error_app2 in Hi by lia. destruct (i - length l1) as [|k] eqn:K; [lia|]. cbn in Hi.
      apply nth_error_In in Hi. rewrite (F2 x Hi) in E. discriminate.
  - intros [Rf D]. unfold no_duplicates. apply forallb_forall. intros y Hy. apply Nat.eqb_eq.
    destruct (In_nth_error l y Hy) as [j Hj].
    destruct (nth_error_split_at l j y Hj) as (l1 & l2 & El & Ll). rewrite El at 1.
    rewrite count_split, (proj2 (H y y Hy Hy) (Rf y Hy)).
    assert (I1 : forall x, In x l1 -> In x l) by (intros x Hx; rewrite El; apply in_or_app; auto).
    assert (I2 : forall x, In x l2 -> In x l) by (intros x Hx; rewrite El; apply in_or_app; right; right; auto).
    assert (F1 : length (filter (fun z => eqb z y) l1) = 0).
    { apply filter_nil_iff. intros x Hx. destruct (eqb x y) eqn:E; auto. exfalso.
      destruct (In_nth_error l1 x Hx) as [i Hi]. assert (i < length l1) by (apply nth_error_Some; congruence).
      apply (D i j x y); auto; [|lia|apply H; auto]. rewrite El, nth_error_app1; auto. }
    assert (F2 : length (filter (fun z => eqb z y) l2) = 0).
    { apply filter_nil_iff. intros x Hx. destruct (eqb x y) eqn:E; auto. exfalso.
      destruct (In_nth_error l2 x Hx) as [i Hi].
      apply (D (length l1 + S i) j x y); auto; [|lia|apply H; auto]. rewrite El, nth_error_app2 by lia.
      replace (length l1 + S i - length l1) with (S i) by lia. exact Hi. }
    lia.
Qed.


Lemma forallb_perm {A} (f : A -> bool) l l' : Permutation l l' -> forallb f l = forallb f l'.
Proof.
  intro P. apply eq_true_iff_eq. rewrite !forallb_forall. split; intros H x Hx; apply H.
  - apply (Permutation_in _ (Permutation_sym P)); auto.
  - apply (Permutation_in _ P); auto.
Qed.
Lemma forallb_ext_ {A} (f g : A -> bool) l : (forall x, f x = g x) -> forallb f l = forallb g l.
Proof. intro H. induction l; cbn; congruence. Qed.

Lemma empty_perm {A} (l l' : list A) : Permutation l l' -> (match l with [] => true | _ => false end) = (match l' with [] => true | _ => false end).
Proof. intro P. apply Permutation_length in P. destruct l, l'; cbn in P; auto; discriminate. Qed.

Lemma discrete_rule_perm l l' : Permutation l l' -> is_ok (DiscreteValueRule l) = is_ok (DiscreteValueRule l').
Proof.
  intro P. unfold DiscreteValueRule, throw_unless. rewrite (empty_perm l l' P).
  rewrite (forallb_perm _ l l' P).
  rewrite (forallb_ext_ (fun v => state_ok (dv_state v) && Nat.eqb (count_eq dvalue_eqb v l) 1)
             (fun v => state_ok (dv_state v) && Nat.eqb (count_eq dvalue_eqb v l') 1))
    by (intro x; rewrite (count_perm dvalue_eqb x l l' P); reflexivity).
  destruct (negb _); auto. destruct (forallb _ l'); reflexivity.
Qed.
Lemma range_rule_perm l l' : Permutation l l' -> is_ok (RangeValueRule l) = is_ok (RangeValueRule l').
Proof.
  intro P. unfold RangeValueRule, throw_unless. rewrite (empty_perm l l' P).
  rewrite (forallb_perm _ l l' P).
  rewrite (forallb_ext_ (fun v => state_ok (rv_state v) && SFleb (rv_min v) (rv_max v) && Nat.eqb (count_eq range_eqb v l) 1)
             (fun v => state_ok (rv_state v) && SFleb (rv_min v) (rv_max v) && Nat.eqb (count_eq range_eqb v l') 1))
    by (intro x; rewrite (count_perm range_eqb x l l' P); reflexivity).
  destruct (negb _); auto. destruct (forallb _ l'); reflexivity.
Qed.

Lemma count_id_nodup l : forallb (fun x => Nat.eqb (count_id x l) 1) l = true <-> NoDup l.
Proof.
  change (forallb (fun x => Nat.eqb (count_id x l) 1) l) with (forallb (fun x => Nat.eqb (length (filter (Nat.eqb x) l)) 1) l).
  rewrite (forallb_ext_ _ (fun x => Nat.eqb (count_eq Nat.eqb x l) 1)).
  - change (forallb (fun x => Nat.eqb (count_eq Nat.eqb x l) 1) l) with (no_duplicates Nat.eqb l).
    unfold no_duplicates. rewrite forallb_forall.
    rewrite (no_duplicates_in Nat.eqb (fun x y => Nat.eqb x y = true) l) by (intros; solve [tauto|apply Nat.eqb_refl]). split.
    + intros [_ H]. apply NoDup_nth_error. intros i j Hi E. destruct (Nat.eq_dec i j); auto. exfalso.
      destruct (nth_error l i) as [x|] eqn:X; [|apply nth_error_Some in Hi; congruence].
      apply (H i j x x); auto. apply Nat.eqb_refl.
    + intro N. split; [intros; apply Nat.eqb_refl|]. intros i j x y Hi Hj D E. apply Nat.eqb_eq in E. subst y. apply D.
      rewrite NoDup_nth_error in N. apply N; [apply nth_error_Some; congruence|congruence].
  - intro x. unfold count_eq. f_equal. f_equal. apply filter_ext. intro y. apply Nat.eqb_sym.
Qed.

Lemma groups_ok_good g : groups_ok g = true <-> good_groups g.
Proof.
  unfold groups_ok, good_groups. rewrite forallb_forall. split.
  - intros H k v Hk. specialize (H _ Hk). cbn [fst snd] in H. apply andb_true_iff in H. destruct H as [H1 H2].
    split; [destruct k; [discriminate|congruence]|]. apply count_id_nodup. exact H2.
  - intros H [k v] Hk. cbn [fst snd]. destruct (H k v Hk) as [H1 H2]. apply andb_true_iff. split; [destruct k; auto|].
    apply count_id_nodup; auto.
Qed.
Lemma state_ok_good s : state_ok s = true <-> good_state s.
Proof. unfold state_ok, good_state. rewrite !andb_true_iff, !groups_ok_good, Z.leb_le. tauto. Qed.

Definition dvalue_sub (a b : dvalue) : Prop := dv_value a = dv_value b /\ sub_state (dv_state a) (dv_state b).
Definition range_sub (a b : range) : Prop :=
  le_double (rv_min a) (rv_min b) /\ le_double (rv_min b) (rv_min a) /\
  le_double (rv_max a) (rv_max b) /\ le_double (rv_max b) (rv_max a) /\
  rv_desc a = rv_desc b /\ sub_state (rv_state a) (rv_state b).

Lemma dvalue_eqb_sub a b : map_state (dv_state a) -> map_state (dv_state b) -> (dvalue_eqb a b = true <-> dvalue_sub a b).
Proof. intros A B. unfold dvalue_eqb, dvalue_sub. rewrite andb_true_iff, str_eqb_ok, state_eqb_sub by assumption. tauto. Qed.

Lemma SFeqb_value a b : is_double a -> is_double b -> (SFeqb a b = true <-> le_double a b /\ le_double b a).
Proof.
  intros A B. unfold SFeqb, le_double. rewrite (SFcompare_value a b A B). unfold opt_cmp.
  destruct (value a) as [u|], (value b) as [v|];
    try (split; [discriminate|]; intros [(x & y & X & Y & _) _]; discriminate).
  pose proof (ext_cmp_le u v) as E1. pose proof (ext_cmp_lt u v) as E2. destruct (ext_cmp u v) eqn:C.
  - split; auto. intros _.
    assert (U : ext_le u v) by (apply E1; discriminate).
    assert (V : ext_le v u). { destruct (ext_le_total v u) as [|X]; auto. destruct u, v; cbn in *; auto; try discriminate; try tauto. apply Z.compare_eq in C. lia. }
    split; [exists u, v|exists v, u]; auto.
  - split; [discriminate|]. intros [_ (x & y & X & Y & H)]. inversion X; inversion Y; subst.
    exfalso. apply (proj1 E2 eq_refl). exact H.
  - split; [discriminate|]. intros [(x & y & X & Y & H) _]. inversion X; inversion Y; subst. apply E1 in H. congruence.
Qed.

Definition range_doubles (r : range) : Prop := is_double (rv_min r) /\ is_double (rv_max r).
Lemma range_eqb_sub a b : range_doubles a -> range_doubles b -> map_state (rv_state a) -> map_state (rv_state b) ->
  (range_eqb a b = true <-> range_sub a b).
Proof.
  intros [A1 A2] [B1 B2] A B. unfold range_eqb, range_sub.
  rewrite !andb_true_iff, str_eqb_ok, state_eqb_sub, !SFeqb_value by assumption. tauto.
Qed.

Lemma state_eqb_refl s : map_state s -> state_eqb s s = true.
Proof. intro H. apply state_eqb_sub; auto. apply sub_state_refl; auto. Qed.
Lemma dvalue_eqb_refl v : map_state (dv_state v) -> dvalue_eqb v v = true.
Proof. intro H. apply dvalue_eqb_sub; auto. split; auto. apply sub_state_refl; auto. Qed.

Lemma discrete_dups vs : (forall v, In v vs -> map_state (dv_state v)) ->
  (no_duplicates dvalue_eqb vs = true <-> pairwise_apart dvalue_sub vs).
Proof.
  intro M. unfold no_duplicates. rewrite forallb_forall.
  rewrite (no_duplicates_in dvalue_eqb dvalue_sub vs (fun x y Hx Hy => dvalue_eqb_sub x y (M x Hx) (M y Hy))).
  - split; [tauto|]. intro H; split; auto. intros x Hx. split; auto. apply sub_state_refl; auto.
  - intros x y Hx Hy _. split; auto. apply sub_state_refl; auto.
Qed.

Lemma discrete_rule_ok vs : (forall v, In v vs -> map_state (dv_state v)) ->
  (DiscreteValueRule vs = Ok vs <-> vs <> [] /\ (forall v, In v vs -> good_state (dv_state v)) /\ pairwise_apart dvalue_sub vs) /\
  (DiscreteValueRule vs = Ok vs \/ DiscreteValueRule vs = Throw).
Proof.
  intro M. unfold DiscreteValueRule, throw_unless. split.
  2: { destruct (negb _); auto. destruct (forallb _ vs); auto. }
  rewrite <- (discrete_dups vs M). unfold no_duplicates. rewrite forallb_forall.
  destruct (forallb (fun v => state_ok (dv_state v) && Nat.eqb (count_eq dvalue_eqb v vs) 1) vs) eqn:E.
  - rewrite forallb_forall in E. destruct vs as [|v vs']; cbn [negb].
    + split; [discriminate|]. intros [H _]; congruence.
    + split; auto. intros _. split; [discriminate|].
      split; intros x Hx; specialize (E x Hx); apply andb_true_iff in E; [apply state_ok_good|]; apply E.
  - split.
    + destruct (negb _); discriminate.
    + intros (H1 & H2 & H3). exfalso. apply not_true_iff_false in E. apply E. apply forallb_forall. intros x Hx.
      apply andb_true_iff. split; [apply state_ok_good; auto|apply H3; auto].
Qed.

Lemma range_refl_number r : range_doubles r -> map_state (rv_state r) -> (range_sub r r <-> range_number r).
Proof.
  intros [A B] M. unfold range_sub, range_number, number, le_double. split.
  - intros ((u & v & U & V & _) & _ & (u' & v' & U' & V' & _) & _). repeat split; auto; congruence.
  - intros [[_ H1] [_ H2]]. destruct (value (rv_min r)) as [u|]; [|congruence]. destruct (value (rv_max r)) as [w|]; [|congruence].
    assert (U : exists a b, Some u = Some a /\ Some u = Some b /\ ext_le a b) by (exists u, u; repeat split; apply ext_le_refl).
    assert (W : exists a b, Some w = Some a /\ Some w = Some b /\ ext_le a b) by (exists w, w; repeat split; apply ext_le_refl).
    split; [exact U|]. split; [exact U|]. split; [exact W|]. split; [exact W|]. split; [reflexivity|]. apply sub_state_refl. exact M.
Qed.

Lemma range_dups vs : (forall v, In v vs -> map_state (rv_state v) /\ range_doubles v) ->
  (no_duplicates range_eqb vs = true <-> (forall v, In v vs -> range_number v) /\ pairwise_apart range_sub vs).
Proof.
  intro M. unfold no_duplicates. rewrite forallb_forall.
  rewrite (no_duplicates_in range_eqb range_sub vs
    (fun x y Hx Hy => range_eqb_sub x y (proj2 (M x Hx)) (proj2 (M y Hy)) (proj1 (M x Hx)) (proj1 (M y Hy)))).
  - split; intros [H1 H2]; split; auto; intros x Hx; destruct (M x Hx); apply range_refl_number; auto.
  - intros x y Hx Hy (E1 & E2 & E3 & E4 & E5 & E6). destruct (M x Hx) as [Mx Dx]. apply range_refl_number; auto.
    destruct E2 as (u & v & U & V & _), E4 as (u' & v' & U' & V' & _). destruct Dx. repeat split; auto; congruence.
Qed.

Lemma range_rule_ok vs : (forall v, In v vs -> map_state (rv_state v) /\ range_doubles v) ->
  (RangeValueRule vs = Ok vs <-> vs <> [] /\
     (forall v, In v vs -> good_state (rv_state v) /\ le_double (rv_min v) (rv_max v)) /\ pairwise_apart range_sub vs) /\
  (RangeValueRule vs = Ok vs \/ RangeValueRule vs = Throw).
Proof.
  intro M. unfold RangeValueRule, throw_unless. split.
  2: { destruct (negb _); auto. destruct (forallb _ vs); auto. }
  pose proof (range_dups vs M) as D. unfold no_duplicates in D. rewrite forallb_forall in D.
  destruct (forallb (fun v => state_ok (rv_state v) && SFleb (rv_min v) (rv_max v) && Nat.eqb (count_eq range_eqb v vs) 1) vs) eqn:E.
  - rewrite forallb_forall in E. destruct vs as [|v vs']; cbn [negb].
    + split; [discriminate|]. intros [H _]; congruence.
    + split; auto. intros _. split; [discriminate|]. split.
      * intros x Hx. specialize (E x Hx). rewrite !andb_true_iff in E. destruct E as [[E1 E2] E3].
        destruct (M x Hx) as [_ [Da Db]]. split; [apply state_ok_good; auto|]. apply SFleb_value; auto.
      * apply D. intros x Hx. specialize (E x Hx). rewrite !andb_true_iff in E. apply E.
  - split.
    + destruct (negb _); discriminate.
    + intros (H1 & H2 & H3). exfalso. apply not_true_iff_false in E. apply E. apply forallb_forall. intros x Hx.
      destruct (H2 x Hx) as [G L]. destruct (M x Hx) as [_ [Da Db]].
      rewrite !andb_true_iff. split; [split; [apply state_ok_good; auto|apply SFleb_value; auto]|].
      apply D; auto. split; auto. intros y Hy. destruct (M y Hy) as [_ [Dc Dd]]. destruct (H2 y Hy) as [_ (u & v & U & V & _)].
      repeat split; auto; congruence.
Qed.

(** ** Registry *)
Lemma gstep_spec o g : match gstep o g with (g', ok) =>
    (ok = true <-> GetPossibleStates g (gop_type o) = None /\
       match o with RegR _ rs => rs <> [] /\ no_duplicates range_eqb rs = true | RegD _ vs => vs <> [] /\ no_duplicates dvalue_eqb vs = true end) /\
    (ok = true -> forall ty, GetPossibleStates g' ty = if Nat.eqb ty (gop_type o) then Some (gop_states o) else GetPossibleStates g ty) /\
    (ok = false -> g' = g)
  end.
Proof.
  destruct o as [t rs|t vs]; cbn [gstep gop_type gop_states].
  - unfold RegisterRange, act_seq, act_check. destruct (GetPossibleStates g t) as [x|] eqn:G.
    { split; [|split; auto; discriminate]. split; [discriminate|]. intros [H _]; discriminate. }
    destruct rs as [|r rs]; cbn [negb].
    { split; [|split; auto; discriminate]. split; [discriminate|]. intros (_ & H & _); congruence. }
    destruct (no_duplicates range_eqb (r :: rs)) eqn:N.
    2: { split; [|split; auto; discriminate]. split; [discriminate|]. intros (_ & _ & H); congruence. }
    pose proof (memplace_spec Nat.eqb nat_eqb_ok t (r :: rs) (reg_ranges g)) as M.
    unfold GetPossibleStates in G. destruct (mfind Nat.eqb t (reg_ranges g)) as [y|] eqn:F; [discriminate|].
    destruct (memplace Nat.eqb t (r :: rs) (reg_ranges g)) as [m|]; [|destruct M; congruence].
    destruct M as (_ & _ & M). split; [|split]; try discriminate.
    + split; auto. intros _. split; auto. split; [discriminate|reflexivity].
    + intros _ ty. unfold GetPossibleStates. cbn [reg_ranges reg_values]. rewrite M. destruct (Nat.eqb ty t); reflexivity.
  - unfold RegisterDiscrete, act_seq, act_check. destruct (GetPossibleStates g t) as [x|] eqn:G.
    { split; [|split; auto; discriminate]. split; [discriminate|]. intros [H _]; discriminate. }
    destruct vs as [|r rs]; cbn [negb].
    { split; [|split; auto; discriminate]. split; [discriminate|]. intros (_ & H & _); congruence. }
    destruct (no_duplicates dvalue_eqb (r :: rs)) eqn:N.
    2: { split; [|split; auto; discriminate]. split; [discriminate|]. intros (_ & _ & H); congruence. }
    pose proof (memplace_spec Nat.eqb nat_eqb_ok t (r :: rs) (reg_values g)) as M.
    pose proof G as G'. unfold GetPossibleStates in G'. destruct (mfind Nat.eqb t (reg_ranges g)) as [y|] eqn:F; [discriminate|].
    destruct (mfind Nat.eqb t (reg_values g)) as [y|] eqn:F'; [discriminate|].
    destruct (memplace Nat.eqb t (r :: rs) (reg_values g)) as [m|]; [|destruct M; congruence].
    destruct M as (_ & _ & M). split; [|split]; try discriminate.
    + split; auto. intros _. split; auto. split; [discriminate|reflexivity].
    + intros _ ty. unfold GetPossibleStates. cbn [reg_ranges reg_values]. rewrite M.
      destruct (Nat.eqb_spec ty t) as [->|D]; [rewrite F; reflexivity|reflexivity].
Qed.

Lemma registry_history h : forall g ty s, GetPossibleStates (act_run gstep h g) ty = Some s <->
  GetPossibleStates g ty = Some s \/
  (exists h1 o h2, h = h1 ++ o :: h2 /\ gop_type o = ty /\ gop_states o = s /\ snd (gstep o (act_run gstep h1 g)) = true).
Proof.
  induction h as [|o h IH]; intros g ty s; cbn [act_run].
  - split; auto. intros [H|(h1 & o & h2 & H & _)]; auto. destruct h1; discriminate.
  - rewrite IH. pose proof (gstep_spec o g) as S. destruct (gstep o g) as [g' ok] eqn:E. cbn [fst].
    destruct S as (S1 & S2 & S3). split.
    + intros [H|(h1 & o' & h2 & -> & H)].
      * destruct ok.
        -- rewrite (S2 eq_refl) in H. destruct (Nat.eqb_spec ty (gop_type o)) as [->|D]; auto. inversion H; subst.
           right. exists [], o, h. cbn [app act_run]. rewrite E. auto.
        -- rewrite (S3 eq_refl) in H. auto.
      * right. exists (o :: h1), o', h2. cbn [app act_run]. rewrite E. cbn [fst]. auto.
    + intros [H|(h1 & o' & h2 & H & T & Q & K)].
      * left. destruct ok; [|rewrite (S3 eq_refl); auto]. rewrite (S2 eq_refl).
        destruct (Nat.eqb_spec ty (gop_type o)) as [->|D]; auto. destruct S1 as [S1 _]. destruct (S1 eq_refl). congruence.
      * destruct h1 as [|o1 h1]; cbn in H; inversion H; subst.
        -- cbn [act_run] in K. rewrite E in K. cbn in K. subst ok. left. rewrite (S2 eq_refl), Nat.eqb_refl. reflexivity.
        -- right. exists h1, o', h2. cbn [act_run] in K. rewrite E in K. cbn [fst] in K. auto.
Qed.

Lemma registry_kept h : forall g ty s, GetPossibleStates g ty = Some s -> GetPossibleStates (act_run gstep h g) ty = Some s.
Proof. intros g ty s H. apply registry_history. auto. Qed.

Definition one_kind (g : registry) : Prop := forall ty x y, mfind Nat.eqb ty (reg_ranges g) = Some x -> mfind Nat.eqb ty (reg_values g) = Some y -> False.
Lemma one_kind_run h : one_kind (act_run gstep h reg_empty).
Proof.
  apply act_run_inv; [|intros ty x y H; discriminate].
  intros o g I. destruct o as [t rs|t vs]; cbn [gstep].
  - unfold RegisterRange, act_seq, act_check. destruct (GetPossibleStates g t) eqn:G; [exact I|].
    destruct (negb _); [|exact I]. destruct (no_duplicates _ _); [|exact I].
    pose proof (memplace_spec Nat.eqb nat_eqb_ok t rs (reg_ranges g)) as M.
    destruct (memplace Nat.eqb t rs (reg_ranges g)) as [m|]; [|exact I]. destruct M as (_ & _ & M).
    intros ty x y. cbn [fst reg_ranges reg_values]. rewrite M. destruct (Nat.eqb_spec ty t) as [->|D]; [|apply I].
    intros _ H. unfold GetPossibleStates in G. destruct (mfind Nat.eqb t (reg_ranges g)); [discriminate|]. rewrite H in G. discriminate.
  - unfold RegisterDiscrete, act_seq, act_check. destruct (GetPossibleStates g t) eqn:G; [exact I|].
    destruct (negb _); [|exact I]. destruct (no_duplicates _ _); [|exact I].
    pose proof (memplace_spec Nat.eqb nat_eqb_ok t vs (reg_values g)) as M.
    destruct (memplace Nat.eqb t vs (reg_values g)) as [m|]; [|exact I]. destruct M as (_ & _ & M).
    intros ty x y. cbn [fst reg_ranges reg_values]. rewrite M. destruct (Nat.eqb_spec ty t) as [->|D]; [|apply I].
    intros H _. unfold GetPossibleStates in G. rewrite H in G. discriminate.
Qed.

Lemma kind_ranges g ty rs : GetPossibleStates g ty = Some (inl rs) <-> mfind Nat.eqb ty (reg_ranges g) = Some rs.
Proof.
  unfold GetPossibleStates. destruct (mfind Nat.eqb ty (reg_ranges g)); [split; congruence|].
  destruct (mfind Nat.eqb ty (reg_values g)); split; discriminate.
Qed.
Lemma kind_values g ty vs : one_kind g -> (GetPossibleStates g ty = Some (inr vs) <-> mfind Nat.eqb ty (reg_values g) = Some vs).
Proof.
  intro I. unfold GetPossibleStates. destruct (mfind Nat.eqb ty (reg_ranges g)) as [x|] eqn:E.
  - split; [discriminate|]. intro H. destruct (I ty x vs E H).
  - destruct (mfind Nat.eqb ty (reg_values g)); split; congruence.
Qed.

Lemma has_discrete_iff all v : HasDiscrete all v = true <->
  exists d, In d all /\ severity (dv_state d) = severity (dv_state v) /\ dv_value d = dv_value v.
Proof.
  unfold HasDiscrete. rewrite existsb_exists. split; intros (d & H & E); exists d; split; auto;
    rewrite andb_true_iff, Z.eqb_eq, str_eqb_ok in *; auto.
Qed.
Lemma has_range_iff all v : is_double (rv_min v) -> is_double (rv_max v) -> (forall d, In d all -> range_doubles d) ->
  (HasRange all v = true <->
   exists d, In d all /\ severity (rv_state d) = severity (rv_state v) /\ rv_desc d = rv_desc v /\
     le_double (rv_min d) (rv_min v) /\ le_double (rv_min v) (rv_min d) /\ le_double (rv_max d) (rv_max v) /\ le_double (rv_max v) (rv_max d)).
Proof.
  intros D1 D2 D. unfold HasRange. rewrite existsb_exists. split; intros (d & H & E); exists d; destruct (D d H); split; auto;
    rewrite !andb_true_iff, Z.eqb_eq, str_eqb_ok, !SFeqb_value in * by assumption; tauto.
Qed.

(** ** Filters *)
Lemma filter_all_iff {V} (fs : list (V -> bool)) : forall m kv, In kv (filter_all fs m) <-> In kv m /\ forall f, In f fs -> f (snd kv) = true.
Proof.
  induction fs as [|f fs IH]; intros m kv; cbn [filter_all].
  - split; [intro H; split; auto; intros f []|tauto].
  - rewrite IH. unfold FilterMap. rewrite filter_In. split.
    + intros [[H1 H2] H3]. split; auto. intros g [<-|Hg]; auto.
    + intros [H1 H2]. split; [split; auto; apply H2; left; auto|]. intros g Hg. apply H2. right; auto.
Qed.
(** Filtering keeps the order: the result is the input with entries left out. *)
Inductive sublist {A} : list A -> list A -> Prop :=
| sub_nil : sublist [] []
| sub_keep x a b : sublist a b -> sublist (x :: a) (x :: b)
| sub_drop x a b : sublist a b -> sublist a (x :: b).
Lemma sublist_refl {A} (l : list A) : sublist l l.
Proof. induction l; constructor; auto. Qed.
Lemma sublist_trans {A} (b c : list A) : sublist b c -> forall a, sublist a b -> sublist a c.
Proof.
  induction 1 as [|x b c H IH|x b c H IH]; intros a Ha.
  - exact Ha.
  - inversion Ha as [|? a' ? Ha'|? ? ? Ha']; subst.
    + constructor. auto.
    + constructor. auto.
  - constructor. auto.
Qed.
Lemma filter_sublist {A} (f : A -> bool) l : sublist (filter f l) l.
Proof. induction l as [|x l IH]; cbn; [constructor|]. destruct (f x); constructor; auto. Qed.
Lemma filter_all_sublist {V} (fs : list (V -> bool)) : forall m, sublist (filter_all fs m) m.
Proof.
  induction fs as [|f fs IH]; intros m; cbn [filter_all]; [apply sublist_refl|].
  eapply sublist_trans; [|apply IH]. apply filter_sublist.
Qed.

(** ** Manual state providers *)
Section Provider.
Context {A : Type}.
Variable eqb : A -> A -> bool.

Definition do_call (c : set_call A) : action (list (nat * sresult A)) :=
  SetState eqb (c_book c) (c_id c) (c_state c) (c_next c) (c_dur c).
Fixpoint ctrace (h : list (set_call A)) (m : list (nat * sresult A)) : list (set_call A * bool) :=
  match h with [] => [] | c :: h' => (c, snd (do_call c m)) :: ctrace h' (fst (do_call c m)) end.

(** What makes a call return. *)
Definition call_ok (c : set_call A) : Prop :=
  exists r, mfind Nat.eqb (c_id c) (c_book c) = Some r /\
    (exists x, In x (sr_states r) /\ eqb x (c_state c) = true) /\
    match c_next c with
    | Some n => (exists x, In x (sr_states r) /\ eqb x n = true) /\ (forall d, c_dur c = Some d -> (0 < d)%Q)
    | None => c_dur c = None
    end.

Lemma listed_iff r s : state_listed eqb r s = true <-> exists x, In x (sr_states r) /\ eqb x s = true.
Proof. unfold state_listed. apply existsb_exists. Qed.
Lemma next_ok_iff r n d : next_ok eqb r n d = true <-> match n with
    | Some n => (exists x, In x (sr_states r) /\ eqb x n = true) /\ (forall q, d = Some q -> (0 < q)%Q)
    | None => d = None
    end.
Proof.
  unfold next_ok. destruct n as [n|].
  - rewrite andb_true_iff, listed_iff. destruct d as [q|].
    + destruct (Qltb_spec 0 q) as [L|L].
      * split; intros [H1 H2]; split; auto. intros q' E; inversion E; subst; auto.
      * split; [intros [_ H]; discriminate|]. intros [_ H]. specialize (H q eq_refl). exfalso. exact (Qlt_not_le _ _ H L).
    + split; intros [H1 _]; split; auto. intros q E; discriminate.
  - destruct d; split; congruence.
Qed.

Lemma do_call_spec c m : match do_call c m with (m', ok) =>
    (ok = true <-> call_ok c) /\
    (forall id, GetState m' id = if ok && Nat.eqb (c_id c) id
       then Some (mk_sresult (c_state c) (match c_next c with Some n => Some (n, c_dur c) | None => None end)) else GetState m id) /\
    (ok = false -> m' = m)
  end.
Proof.
  unfold do_call, SetState, call_ok, GetState. destruct (mfind Nat.eqb (c_id c) (c_book c)) as [r|] eqn:F.
  - destruct (state_listed eqb r (c_state c) && next_ok eqb r (c_next c) (c_dur c)) eqn:E.
    + apply andb_true_iff in E. destruct E as [E1 E2]. apply listed_iff in E1. apply next_ok_iff in E2.
      split; [|split; [|discriminate]].
      * split; auto. intros _. exists r. auto.
      * intro id. cbn [andb]. destruct (Nat.eqb_spec (c_id c) id) as [<-|D].
        -- apply (mfind_set_eq Nat.eqb nat_eqb_ok).
        -- apply (mfind_set_neq Nat.eqb nat_eqb_ok); auto.
    + split; [|split; auto]. split; [discriminate|]. intros (r' & H & H1 & H2). inversion H; subst r'.
      apply listed_iff in H1. apply next_ok_iff in H2. rewrite H1, H2 in E. discriminate.
  - split; [|split; auto]. split; [discriminate|]. intros (r & H & _). discriminate.
Qed.

Lemma last_set_run h : forall m id, GetState (act_run do_call h m) id = last_set id (ctrace h m) (GetState m id).
Proof.
  induction h as [|c h IH]; intros m id; cbn [act_run ctrace last_set]; auto. rewrite IH. f_equal.
  pose proof (do_call_spec c m) as S. destruct (do_call c m) as [m' ok]. cbn [fst snd]. apply S.
Qed.

Lemma last_set_from h : forall m id v, last_set id (ctrace h m) v = v \/
  exists c, In c h /\ call_ok c /\ c_id c = id /\
    last_set id (ctrace h m) v = Some (mk_sresult (c_state c) (match c_next c with Some n => Some (n, c_dur c) | None => None end)).
Proof.
  induction h as [|c h IH]; intros m id v; cbn [ctrace last_set]; auto.
  pose proof (do_call_spec c m) as S. destruct (do_call c m) as [m' ok]. cbn [fst snd]. destruct S as (S1 & _).
  destruct (ok && Nat.eqb (c_id c) id) eqn:E.
  - apply andb_true_iff in E. destruct E as [-> E]. apply Nat.eqb_eq in E.
    destruct (IH m' id (Some (mk_sresult (c_state c) (match c_next c with Some n => Some (n, c_dur c) | None => None end)))) as [H|(c' & H1 & H2 & H3 & H4)].
    + right. exists c. rewrite H. split; [left; auto|]. split; [apply S1; auto|]. auto.
    + right. exists c'. split; [right; auto|]. auto.
  - destruct (IH m' id v) as [H|(c' & H1 & H2 & H3 & H4)]; auto. right. exists c'. split; [right; auto|]. auto.
Qed.

(** Position queries. *)
Lemma zone_filter_ok p tol (b : sbook A) : lvalid p -> (0 <= tol)%Q -> (forall id r, In (id, r) b -> Forall lvalid (sr_zone r)) ->
  exists b', zone_filter [p] tol b = Ok b' /\
    (forall id r, In (id, r) b' <-> In (id, r) b /\ rnear tol (sr_zone r) [p]) /\ sublist b' b.
Proof.
  intros V T. induction b as [|[id r] b IH]; intro Z; cbn [zone_filter].
  - exists []. split; auto. split; [|constructor]. intros id r. split; [intros []|]. intros [[] _].
  - destruct (rintersects_iff (sr_zone r) [p] tol) as (x & E & X); auto.
    { apply (Z id). left; auto. }
    { cbn. constructor; [intros []|constructor]. }
    rewrite E. cbn [obind]. destruct IH as (b' & E' & B1 & B2). { intros i q H. apply (Z i). right; auto. }
    rewrite E'. cbn [obind]. eexists. split; [reflexivity|]. destruct x.
    + split; [|constructor; auto]. intros i q. cbn. rewrite B1. split.
      * intros [H|[H1 H2]]; [inversion H; subst; split; auto; apply X; auto|auto].
      * intros [[H|H] K]; auto.
    + split; [|constructor; auto]. intros i q. rewrite B1. cbn. split.
      * intros [H1 H2]; auto.
      * intros [[H|H] K]; auto. inversion H; subst. apply X in K. discriminate.
Qed.
End Provider.

Lemma split_cases {A} (h1 h2 : list A) : forall o1 o2 t1 t2, h1 ++ o1 :: t1 = h2 ++ o2 :: t2 ->
  h1 = h2 \/ (exists x, h2 = h1 ++ o1 :: x) \/ (exists x, h1 = h2 ++ o2 :: x).
Proof.
  revert h2. induction h1 as [|a h1 IH]; intros [|b h2] o1 o2 t1 t2 E; cbn in E; inversion E; subst; auto.
  - right; left. exists h2. reflexivity.
  - right; right. exists h1. reflexivity.
  - destruct (IH _ _ _ _ _ H1) as [->|[(x & ->)|(x & ->)]]; auto; right; [left|right]; exists x; reflexivity.
Qed.
