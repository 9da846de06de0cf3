From Coq Require Import List QArith Bool Arith Lia.
From Verif Require Import Base Maps Regions_Model Regions_Spec Regions_Proofs Hierarchy_Proofs Rulebook_Model Rulebook_Spec.
Import ListNotations.

Lemma kind_eqb_ok a b : kind_eqb a b = true <-> a = b.
Proof. destruct a, b; simpl; intuition congruence. Qed.
Lemma alt_eqb_ok a b : alt_eqb a b = true <-> a = b.
Proof. destruct a, b; simpl; intuition congruence. Qed.
Lemma idv_eqb_ok a b : idv_eqb a b = true <-> a = b.
Proof.
  destruct a as [a n], b as [b m]. unfold idv_eqb. simpl. rewrite andb_true_iff, alt_eqb_ok, Nat.eqb_eq.
  intuition congruence.
Qed.
Lemma kind_eqb_refl k : kind_eqb k k = true.
Proof. apply kind_eqb_ok; reflexivity. Qed.
Lemma kind_eqb_neq a b : a <> b -> kind_eqb a b = false.
Proof. intro H. destruct (kind_eqb a b) eqn:E; auto. apply kind_eqb_ok in E. congruence. Qed.

Definition content (b : book) : contents := fun k id => mfind Nat.eqb id (rules b k).

Record wf (b : book) : Prop := {
  wf_id : forall k id r, content b k id = Some r -> r_id r = id;
  wf_nd : forall k, NoDup (map fst (rules b k));
  wf_one : forall k k' id r r', alt_of k = alt_of k' -> content b k id = Some r -> content b k' id = Some r' -> k = k' }.

Definition nonempty (b : book) : Prop := forall l, mfind Nat.eqb l (index b) <> Some [].

Definition idx (b : book) : Prop := forall l i s,
  In (i, s) (lane_entries l b) <->
  exists k r, content b k (snd i) = Some r /\ alt_of k = fst i /\ In (mk_lsrange l s) (r_zone r).

(** ** The index *)
Lemma entries_set l l' es b :
  lane_entries l (set_index (mset Nat.eqb l' es (index b)) b) = if Nat.eqb l l' then es else lane_entries l b.
Proof.
  unfold lane_entries, set_index. cbn [index]. destruct (Nat.eqb_spec l l').
  - subst. rewrite mfind_set_eq by apply nat_eqb_ok. reflexivity.
  - rewrite mfind_set_neq by (auto using nat_eqb_ok). reflexivity.
Qed.
Lemma entries_erase l l' b :
  lane_entries l (set_index (merase Nat.eqb l' (index b)) b) = if Nat.eqb l l' then [] else lane_entries l b.
Proof.
  unfold lane_entries, set_index. cbn [index]. destruct (Nat.eqb_spec l l').
  - subst. rewrite mfind_erase_eq by apply nat_eqb_ok. reflexivity.
  - rewrite mfind_erase_neq by (auto using nat_eqb_ok). reflexivity.
Qed.

Lemma index_add_ok i zs : forall b, nonempty b ->
  exists b', act_each (AddRange i) zs b = (b', true) /\ rules b' = rules b /\ nonempty b' /\
    forall l j s, In (j, s) (lane_entries l b') <-> In (j, s) (lane_entries l b) \/ (j = i /\ In (mk_lsrange l s) zs).
Proof.
  induction zs as [|z zs IH]; intros b N; cbn [act_each].
  - exists b. repeat split; auto. intros [H|[_ []]]; auto.
  - unfold act_seq. unfold AddRange at 1, act_do.
    set (b1 := set_index _ b).
    assert (N1 : nonempty b1).
    { intros l. unfold b1, set_index. cbn [index]. destruct (Nat.eq_dec l (lane_id z)) as [->|H].
      - rewrite mfind_set_eq by apply nat_eqb_ok. intro K. inversion K.
        apply app_eq_nil in H0. destruct H0; discriminate.
      - rewrite mfind_set_neq by (auto using nat_eqb_ok). apply N. }
    destruct (IH b1 N1) as (b' & E & R & N' & M). exists b'. split; [exact E|].
    split; [exact R|]. split; [exact N'|]. intros l j s. rewrite M. unfold b1. rewrite entries_set.
    destruct (Nat.eqb_spec l (lane_id z)) as [->|H].
    + rewrite in_app_iff. simpl. split.
      * intros [[K|[K|[]]]|[-> K]]; auto. inversion K; subst. right. split; auto. left. destruct z; reflexivity.
      * intros [K|[-> [K|K]]]; auto. left. right. left. apply (f_equal s_range) in K. cbn in K. congruence.
    + simpl. split.
      * intros [K|[-> K]]; auto.
      * intros [K|[-> [K|K]]]; auto. subst z. exfalso. apply H. reflexivity.
Qed.

Lemma remove_ranges_step i l b : nonempty b ->
  match RemoveRanges i l b with
  | (b', ok) => rules b' = rules b /\ nonempty b' /\
      (ok = true -> forall l' j s, In (j, s) (lane_entries l' b') <-> In (j, s) (lane_entries l' b) /\ ~ (j = i /\ l' = l)) /\
      (ok = false -> lane_entries l b = [])
  end.
Proof.
  intro N. unfold RemoveRanges, act_seq, act_check, act_do.
  destruct (mhas Nat.eqb l (index b)) eqn:H.
  - set (rest := merase idv_eqb i (lane_entries l b)).
    assert (R : forall j s, In (j, s) rest <-> In (j, s) (lane_entries l b) /\ j <> i).
    { intros j s. unfold rest. rewrite merase_in by apply idv_eqb_ok. simpl. tauto. }
    assert (M : forall l' j s, In (j, s) (if Nat.eqb l' l then rest else lane_entries l' b) <->
                In (j, s) (lane_entries l' b) /\ ~ (j = i /\ l' = l)).
    { intros l' j s. destruct (Nat.eqb_spec l' l) as [->|Hl].
      - rewrite R. tauto.
      - tauto. }
    destruct rest as [|x rest'] eqn:Er.
    + split; [reflexivity|]. split.
      * intros l'. unfold set_index. cbn [index]. destruct (Nat.eq_dec l' l) as [->|Hl].
        -- rewrite mfind_erase_eq by apply nat_eqb_ok. discriminate.
        -- rewrite mfind_erase_neq by (auto using nat_eqb_ok). apply N.
      * split; [|discriminate]. intros _ l' j s. rewrite entries_erase. apply M.
    + split; [reflexivity|]. split.
      * intros l'. unfold set_index. cbn [index]. destruct (Nat.eq_dec l' l) as [->|Hl].
        -- rewrite mfind_set_eq by apply nat_eqb_ok. discriminate.
        -- rewrite mfind_set_neq by (auto using nat_eqb_ok). apply N.
      * split; [|discriminate]. intros _ l' j s. rewrite entries_set. apply M.
  - split; [reflexivity|]. split; [exact N|]. split; [discriminate|]. intros _.
    unfold lane_entries. unfold mhas in H. destruct (mfind Nat.eqb l (index b)); [discriminate|reflexivity].
Qed.

Lemma index_remove_ok i (zs : list lsrange) : forall b, nonempty b ->
  match act_each (fun z => RemoveRanges i (lane_id z)) zs b with
  | (b', ok) => rules b' = rules b /\ nonempty b' /\
      (ok = true -> forall l j s, In (j, s) (lane_entries l b') <-> In (j, s) (lane_entries l b) /\ ~ (j = i /\ In l (map lane_id zs))) /\
      (NoDup (map lane_id zs) -> (forall l, In l (map lane_id zs) -> exists s, In (i, s) (lane_entries l b)) -> ok = true)
  end.
Proof.
  induction zs as [|z zs IH]; intros b N; cbn [act_each].
  - unfold act_skip. repeat split; auto; simpl in *; tauto.
  - unfold act_seq. pose proof (remove_ranges_step i (lane_id z) b N) as S1.
    destruct (RemoveRanges i (lane_id z) b) as [b1 [|]].
    + destruct S1 as (R1 & N1 & M1 & _). specialize (M1 eq_refl). specialize (IH b1 N1).
      destruct (act_each (fun z => RemoveRanges i (lane_id z)) zs b1) as [b' ok].
      destruct IH as (R2 & N2 & M2 & O2). split; [congruence|]. split; [exact N2|]. split.
      * intros K l j s. rewrite (M2 K), M1. simpl. intuition congruence.
      * intros ND H. cbn [map] in ND. inversion ND; subst. apply O2; auto.
        intros l Hl. destruct (H l) as (s & Hs); [right; exact Hl|]. exists s. apply M1.
        split; [exact Hs|]. intros [_ ->]. contradiction.
    + destruct S1 as (R1 & N1 & _ & E1). specialize (E1 eq_refl). split; [exact R1|]. split; [exact N1|].
      split; [discriminate|]. intros _ H. destruct (H (lane_id z)) as (s & Hs); [left; reflexivity|].
      rewrite E1 in Hs. destruct Hs.
Qed.

(** ** One call *)
Lemma content_set k m b k' id : content (set_rules k m b) k' id = if kind_eqb k' k then mfind Nat.eqb id m else content b k' id.
Proof. unfold content, set_rules. cbn [rules]. destruct (kind_eqb k' k); reflexivity. Qed.
Lemma entries_set_rules k m b l : lane_entries l (set_rules k m b) = lane_entries l b.
Proof. reflexivity. Qed.

Lemma content_ext b b' : rules b' = rules b -> forall k id, content b' k id = content b k id.
Proof. intros H k id. unfold content. rewrite H. reflexivity. Qed.

(** What one call does, whether it returns or throws. *)
Definition post (o : op) (b b' : book) (ok : bool) : Prop :=
  wf b' /\ nonempty b' /\
  (ok = true -> effect o (content b) (content b') true) /\
  (ok = false -> forall k id, content b' k id = content b k id) /\
  (idx b -> ok = true -> idx b') /\
  (idx b -> (forall k id r, content b k id = Some r -> lanes_once r) -> ok = false ->
     effect o (content b) (content b') false /\ idx b').

Lemma wf_same b b' : rules b' = rules b -> wf b -> wf b'.
Proof.
  intros E [A B C]. constructor.
  - intros k id r. rewrite (content_ext b b' E). apply A.
  - intro k. rewrite E. apply B.
  - intros k k' id r r'. rewrite !(content_ext b b' E). apply C.
Qed.

Lemma alt_other k k' : alt_of k = alt_of k' -> k <> k' -> other k = Some k'.
Proof. destruct k, k'; simpl; intros; congruence. Qed.
Lemma other_alt k k' : other k = Some k' -> alt_of k = alt_of k' /\ k <> k'.
Proof. destruct k; simpl; intro H; inversion H; subst; split; [reflexivity|discriminate|reflexivity|discriminate]. Qed.

Lemma NoDup_snoc_keys {V} (m : list (nat * V)) k v : NoDup (map fst m) -> mfind Nat.eqb k m = None -> NoDup (map fst (m ++ [(k, v)])).
Proof.
  intros N E. rewrite map_app. simpl. apply NoDup_snoc; auto. apply (mfind_none Nat.eqb nat_eqb_ok) in E. exact E.
Qed.

Lemma add_post k r b : wf b -> nonempty b ->
  match AddRule k r b with (b', ok) => post (Add k r) b b' ok end.
Proof.
  intros W N. unfold AddRule, act_seq, act_check.
  set (chk := match other k with Some k' => negb (mhas Nat.eqb (r_id r) (rules b k')) | None => true end).
  assert (Same : forall c, (c = false -> taken (content b) k (r_id r)) -> c = false -> post (Add k r) b b c).
  { intros c T Hc. subst c. split; [exact W|]. split; [exact N|]. split; [discriminate|]. split; [reflexivity|].
    split; [discriminate|]. intros I _ _. split; [|exact I]. apply eff_add_taken; auto. }
  destruct chk eqn:C.
  - unfold emplace_rule.
    pose proof (memplace_spec Nat.eqb nat_eqb_ok (r_id r) r (rules b k)) as MS.
    destruct (memplace Nat.eqb (r_id r) r (rules b k)) as [m|].
    + destruct MS as (Fresh & Em & MF). cbn.
      set (b1 := set_rules k m b). unfold index_add.
      assert (N1 : nonempty b1) by exact N.
      destruct (index_add_ok (alt_of k, r_id r) (r_zone r) b1 N1) as (b' & E & R & N' & M). rewrite E.
      assert (CT : forall k' id, content b' k' id = if kind_eqb k' k && Nat.eqb id (r_id r) then Some r else content b k' id).
      { intros k' id. rewrite (content_ext b1 b' R). unfold b1. rewrite content_set.
        destruct (kind_eqb k' k) eqn:Ek; cbn [andb]; [|reflexivity]. rewrite MF.
        destruct (Nat.eqb id (r_id r)); auto. apply kind_eqb_ok in Ek; subst. reflexivity. }
      assert (NT : ~ taken (content b) k (r_id r)).
      { intros (k' & r' & S & T). unfold same_space in S.
        assert (D : k = k' \/ k <> k') by (destruct k, k'; auto; right; congruence). destruct D as [D|D].
        - subst k'. unfold content in T. congruence.
        - pose proof (alt_other k k' S D) as O. unfold chk in C. rewrite O in C.
          apply negb_true_iff, mhas_false in C. unfold content in T. congruence. }
      split; [|split; [exact N'|]].
      { constructor.
        - intros k' id x. rewrite CT. destruct (kind_eqb k' k && Nat.eqb id (r_id r)) eqn:Ec.
          + apply andb_true_iff in Ec. destruct Ec as [_ Ec]. apply Nat.eqb_eq in Ec. congruence.
          + apply (wf_id b W).
        - intro k'. rewrite R. unfold b1, set_rules. cbn [rules]. destruct (kind_eqb k' k); [|apply (wf_nd b W)].
          rewrite Em. apply NoDup_snoc_keys; [apply (wf_nd b W)|exact Fresh].
        - intros k1 k2 id x y Hk. rewrite !CT.
          destruct (kind_eqb k1 k && Nat.eqb id (r_id r)) eqn:E1; destruct (kind_eqb k2 k && Nat.eqb id (r_id r)) eqn:E2.
          + apply andb_true_iff in E1, E2. destruct E1 as [E1 _], E2 as [E2 _]. apply kind_eqb_ok in E1, E2. congruence.
          + intros _ H2. exfalso. apply andb_true_iff in E1. destruct E1 as [E1 E1']. apply kind_eqb_ok in E1. apply Nat.eqb_eq in E1'.
            subst. apply NT. exists k2, y. split; [exact Hk|exact H2].
          + intros H1 _. exfalso. apply andb_true_iff in E2. destruct E2 as [E2 E2']. apply kind_eqb_ok in E2. apply Nat.eqb_eq in E2'.
            subst. apply NT. exists k1, x. split; [symmetry; exact Hk|exact H1].
          + apply (wf_one b W); exact Hk. }
      split; [intros _; apply eff_add; auto|]. split; [discriminate|]. split; [|intros _ _ H; discriminate H].
      intros I _ l i s. rewrite M. unfold b1. rewrite entries_set_rules, (I l i s). split.
      * intros [(k' & x & A & B & D)|[-> Z]].
        -- exists k', x. split; [|auto]. rewrite CT. destruct (kind_eqb k' k && Nat.eqb (snd i) (r_id r)) eqn:Ec; [|exact A].
           apply andb_true_iff in Ec. destruct Ec as [Ek Ei]. apply kind_eqb_ok in Ek. apply Nat.eqb_eq in Ei. subst k'.
           rewrite Ei in A. unfold content in A. congruence.
        -- exists k, r. cbn [fst snd]. rewrite CT, kind_eqb_refl, Nat.eqb_refl. auto.
      * intros (k' & x & A & B & D). rewrite CT in A. destruct (kind_eqb k' k && Nat.eqb (snd i) (r_id r)) eqn:Ec.
        -- right. apply andb_true_iff in Ec. destruct Ec as [Ek Ei]. apply kind_eqb_ok in Ek. apply Nat.eqb_eq in Ei. subst k'.
           inversion A; subst x. split; [|exact D]. destruct i; cbn in *; congruence.
        -- left. exists k', x. auto.
    + cbn. apply (Same false); auto. intros _. destruct MS as (v & MS). exists k, v. split; [reflexivity|exact MS].
  - apply (Same false); auto. intros _. unfold chk in C. destruct (other k) as [k'|] eqn:O; [|discriminate].
    apply negb_false_iff, mhas_true in C. destruct C as (v & C). exists k', v. split; [apply (other_alt k k' O)|exact C].
Qed.

Lemma remove_from_post k id b : wf b -> nonempty b ->
  (forall k', alt_of k' = alt_of k -> k' <> k -> content b k' id = None \/ content b k id <> None) ->
  match remove_from k id b with (b', ok) => post (Remove (alt_of k) id) b b' ok end.
Proof.
  intros W N HO. unfold remove_from. destruct (mfind Nat.eqb id (rules b k)) as [r|] eqn:F.
  2:{ split; [exact W|]. split; [exact N|]. split; [discriminate|]. split; [reflexivity|]. split; [discriminate|].
      intros I _ _. split; [|exact I]. apply eff_remove_absent; auto. intros k' x Ha Hc.
      assert (D : k' = k \/ k' <> k) by (destruct k, k'; auto; right; congruence). destruct D as [D|D].
      - subst. unfold content in Hc. congruence.
      - destruct (HO k' Ha D) as [H|H]; [congruence|]. apply H. exact F. }
  assert (Hid : r_id r = id) by (apply (wf_id b W k id r); exact F).
  assert (Only : forall k' x, alt_of k' = alt_of k -> content b k' id = Some x -> k' = k /\ x = r).
  { intros k' x Ha Hc. assert (k' = k) by (eapply (wf_one b W); eauto). split; [assumption|]. subst k'. unfold content in Hc. congruence. }
  unfold act_seq, act_do, index_remove. rewrite Hid.
  pose proof (index_remove_ok (alt_of k, id) (r_zone r) b N) as IR.
  destruct (act_each (fun z => RemoveRanges (alt_of k, id) (lane_id z)) (r_zone r) b) as [b1 ok].
  destruct IR as (R & N1 & M & O). destruct ok.
  - specialize (M eq_refl). set (b' := set_rules k (merase Nat.eqb id (rules b1 k)) b1).
    assert (CT : forall k' id', content b' k' id' = if kind_eqb k' k && Nat.eqb id' id then None else content b k' id').
    { intros k' id'. unfold b'. rewrite content_set. destruct (kind_eqb k' k) eqn:Ek; cbn [andb].
      - apply kind_eqb_ok in Ek; subst k'. rewrite R. destruct (Nat.eqb_spec id' id) as [->|Hn].
        + apply mfind_erase_eq; apply nat_eqb_ok.
        + apply mfind_erase_neq; auto using nat_eqb_ok.
      - apply content_ext. exact R. }
    assert (Sub : forall k' id' x, content b' k' id' = Some x -> content b k' id' = Some x).
    { intros k' id' x. rewrite CT. destruct (kind_eqb k' k && Nat.eqb id' id); [discriminate|auto]. }
    split; [|split; [exact N1|]].
    { constructor.
      - intros k' id' x H. apply Sub in H. eapply (wf_id b W); eauto.
      - intro k'. unfold b', set_rules. cbn [rules]. rewrite R. destruct (kind_eqb k' k); [apply merase_nodup|]; apply (wf_nd b W).
      - intros k1 k2 id' x y Ha H1 H2. apply Sub in H1, H2. eapply (wf_one b W); eauto. }
    split.
    { intros _. apply eff_remove; [exists k, r; split; [reflexivity|exact F]|].
      intros k' id'. rewrite CT. destruct (Nat.eqb_spec id' id) as [->|]; [|rewrite !andb_false_r; reflexivity].
      rewrite !andb_true_r. destruct (kind_eqb k' k) eqn:Ek.
      - apply kind_eqb_ok in Ek; subst. replace (alt_eqb (alt_of k) (alt_of k)) with true; [reflexivity|]. symmetry. apply alt_eqb_ok. reflexivity.
      - destruct (alt_eqb (alt_of k') (alt_of k)) eqn:Ea; [|reflexivity]. apply alt_eqb_ok in Ea.
        destruct (content b k' id) as [x|] eqn:Ec; [|reflexivity]. destruct (Only k' x Ea Ec) as [-> _].
        rewrite kind_eqb_refl in Ek. discriminate. }
    split; [discriminate|]. split; [|intros _ _ H; discriminate H].
    intros I _ l i s. unfold b'. rewrite entries_set_rules, M, (I l i s). split.
    + intros [(k' & x & A & B & D) H]. exists k', x. split; [|auto]. fold b'. rewrite CT.
      destruct (kind_eqb k' k && Nat.eqb (snd i) id) eqn:Ec; [|exact A]. exfalso. apply H.
      apply andb_true_iff in Ec. destruct Ec as [Ek Ei]. apply kind_eqb_ok in Ek. apply Nat.eqb_eq in Ei. subst k'.
      rewrite Ei in A. unfold content in A. rewrite F in A. inversion A; subst x. split.
      * destruct i; cbn in *; congruence.
      * apply in_map_iff. exists (mk_lsrange l s). auto.
    + intros (k' & x & A & B & D). fold b' in A. split; [exists k', x; split; auto|].
      intros [-> _]. cbn [fst snd] in *. rewrite CT, Nat.eqb_refl, andb_true_r in A.
      destruct (kind_eqb k' k) eqn:Ek; [discriminate|]. destruct (Only k' x B A) as [-> _].
      rewrite kind_eqb_refl in Ek. discriminate.
  - split; [apply (wf_same b); auto|]. split; [exact N1|]. split; [discriminate|].
    split; [intros _; apply content_ext; exact R|]. split; [discriminate|].
    intros I LO _. exfalso. assert (false = true); [|discriminate]. apply O.
    + apply (LO k id r). exact F.
    + intros l Hl. apply in_map_iff in Hl. destruct Hl as ([l' s] & Hl & Hz). cbn in Hl. subst l'.
      exists s. apply I. exists k, r. cbn [fst snd]. auto.
Qed.

Lemma step_post o b : wf b -> nonempty b -> match step o b with (b', ok) => post o b b' ok end.
Proof.
  intros W N. destruct o as [k r|a id|]; cbn [step].
  - apply add_post; auto.
  - destruct a; cbn [RemoveRule].
    + apply (remove_from_post RightOfWay); auto. intros [] H1 H2; simpl in *; congruence.
    + apply (remove_from_post SpeedLimit); auto. intros [] H1 H2; simpl in *; congruence.
    + apply (remove_from_post DirectionUsage); auto. intros [] H1 H2; simpl in *; congruence.
    + destruct (mhas Nat.eqb id (rules b DiscreteValue)) eqn:E.
      * apply (remove_from_post DiscreteValue); auto. intros k' _ _. right. apply mhas_true in E. destruct E as (v & E).
        unfold content. rewrite E. discriminate.
      * apply (remove_from_post RangeValue); auto. intros [] H1 H2; simpl in *; try congruence.
        left. apply mhas_false in E. exact E.
  - unfold RemoveAll, act_do. split; [|split].
    + constructor; try (intros; discriminate). intros. constructor.
    + intros l H. discriminate H.
    + split; [intros _; apply eff_clear; reflexivity|]. split; [discriminate|]. split; [|intros _ _ H; discriminate H].
      intros _ _ l i s. split; [intros []|]. intros (k & r & A & _). discriminate A.
Qed.

(** ** Histories *)
Lemma wf_empty : wf empty /\ nonempty empty /\ idx empty.
Proof.
  split; [constructor; try (intros; discriminate); intros; constructor|].
  split; [intros l H; discriminate H|]. intros l i s. split; [intros []|]. intros (k & r & A & _). discriminate A.
Qed.

Lemma run_wf h : wf (act_run step h empty) /\ nonempty (act_run step h empty).
Proof.
  apply (act_run_inv step (fun b => wf b /\ nonempty b)).
  - intros o b [W N]. pose proof (step_post o b W N) as P. destruct (step o b) as [b' ok]. split; apply P.
  - split; apply wf_empty.
Qed.

Lemma effect_lanes_once o c c' ok : op_rule lanes_once o -> effect o c c' ok ->
  (forall k id r, c k id = Some r -> lanes_once r) -> forall k id r, c' k id = Some r -> lanes_once r.
Proof.
  intros H E L k id r Hc. inversion E; subst; rewrite H1 in Hc || rewrite H0 in Hc; simpl in H; eauto;
    match type of Hc with (if ?b then _ else _) = _ => destruct b; [inversion Hc; subst; auto; try discriminate|eauto] | _ => try discriminate end.
Qed.

Definition good (b : book) : Prop := wf b /\ nonempty b /\ idx b /\ forall k id r, content b k id = Some r -> lanes_once r.

Lemma good_step o b : good b -> op_rule lanes_once o ->
  good (fst (step o b)) /\ effect o (content b) (content (fst (step o b))) (snd (step o b)).
Proof.
  intros (W & N & I & L) H. pose proof (step_post o b W N) as P. destruct (step o b) as [b' ok]. cbn [fst snd].
  destruct P as (W' & N' & E1 & _ & I1 & E2).
  assert (E : effect o (content b) (content b') ok) by (destruct ok; [auto|apply E2; auto]).
  split; [|exact E]. split; [exact W'|]. split; [exact N'|]. split; [destruct ok; [auto|apply E2; auto]|].
  eapply effect_lanes_once; eauto.
Qed.

Lemma good_run h : (forall o, In o h -> op_rule lanes_once o) -> good (act_run step h empty).
Proof.
  assert (G : forall h b, good b -> (forall o, In o h -> op_rule lanes_once o) -> good (act_run step h b)).
  { clear. induction h as [|o h IH]; intros b Gb H; cbn [act_run]; auto. apply IH.
    - apply good_step; auto. apply H. left. reflexivity.
    - intros x Hx. apply H. right. exact Hx. }
  apply G. destruct wf_empty as (A & B & C). split; [exact A|]. split; [exact B|]. split; [exact C|].
  intros k id r H. discriminate H.
Qed.

(** A history whose calls all returned keeps the index right without conditions on zones. *)
Fixpoint all_returned (h : list op) (b : book) : Prop :=
  match h with [] => True | o :: h' => snd (step o b) = true /\ all_returned h' (fst (step o b)) end.

Lemma returned_idx h : forall b, wf b -> nonempty b -> idx b -> all_returned h b -> idx (act_run step h b).
Proof.
  induction h as [|o h IH]; intros b W N I H; cbn [act_run]; auto. destruct H as [H1 H2].
  pose proof (step_post o b W N) as P. destruct (step o b) as [b' ok]. cbn [fst snd] in *.
  destruct P as (W' & N' & _ & _ & I1 & _). apply IH; auto.
Qed.

(** ** Queries *)
Lemma find_entries_ok es q tol : valid q -> (forall i r, In (i, r) es -> valid r) -> (0 <= tol)%Q ->
  exists l, find_entries es q tol = Ok l /\ forall i, In i l <-> exists r, In (i, r) es /\ near tol r q.
Proof.
  intros Vq. induction es as [|[i r] es IH]; intros V T; cbn [find_entries].
  - exists []. split; [reflexivity|]. intro i. simpl. split; [tauto|]. intros (r & [] & _).
  - destruct (intersects_pos r q tol) as (h & E & Hh); auto; [apply (V i); left; reflexivity|]. rewrite E. cbn [obind].
    destruct IH as (l & El & Hl); auto; [intros j x Hx; apply (V j); right; exact Hx|]. rewrite El. cbn [omap].
    eexists. split; [reflexivity|]. intro j. destruct h.
    + simpl. rewrite Hl. split.
      * intros [<-|(x & A & B)]; [exists r|exists x]; split; auto. apply Hh; reflexivity.
      * intros (x & [A|A] & B); [inversion A; subst; auto|right; eauto].
    + rewrite Hl. split.
      * intros (x & A & B). exists x. simpl; auto.
      * intros (x & [A|A] & B); [inversion A; subst; apply Hh in B; discriminate|eauto].
Qed.

(** The result so far holds only present rules, each hit once. *)
Definition holds (b : book) (P : kind -> nat -> Prop) (q : kind -> list (nat * rule)) : Prop :=
  (forall k id r, mfind Nat.eqb id (q k) = Some r <-> content b k id = Some r /\ P k id) /\
  (forall k, NoDup (map fst (q k))).

Lemma take_ok b k id q P r : holds b P q -> content b k id = Some r ->
  exists q', take b k id q = Ok q' /\ holds b (fun k' id' => P k' id' \/ (k' = k /\ id' = id)) q'.
Proof.
  intros [H Hn] E. unfold take, GetRule. unfold content in E. rewrite E. cbn [obind]. eexists. split; [reflexivity|].
  assert (Hm := memplace_spec Nat.eqb nat_eqb_ok id r (q k)). unfold res_emplace.
  destruct (memplace Nat.eqb id r (q k)) as [m|] eqn:Em.
  - destruct Hm as (F & Ea & MF). split.
    + intros k' id' x. destruct (kind_eqb k' k) eqn:Ek.
      * apply kind_eqb_ok in Ek; subst k'. rewrite MF. destruct (Nat.eqb_spec id' id) as [->|Hne].
        -- unfold content. split; [intro K; inversion K; subst; auto|intros [K _]; congruence].
        -- rewrite H. intuition congruence.
      * rewrite H. split; [intuition|]. intros [K [Q|[-> _]]]; auto. rewrite kind_eqb_refl in Ek; discriminate.
    + intro k'. destruct (kind_eqb k' k); [|apply Hn]. rewrite Ea. apply NoDup_snoc_keys; auto.
  - destruct Hm as (v & F). split.
    + intros k' id' x. assert (Q : mfind Nat.eqb id' (if kind_eqb k' k then q k else q k') = mfind Nat.eqb id' (q k')).
      { destruct (kind_eqb k' k) eqn:Ek; auto. apply kind_eqb_ok in Ek; subst; reflexivity. }
      rewrite Q, H. split; [intuition|]. intros [K [L|[-> ->]]]; auto.
      apply H in F. destruct F as [F F']. auto.
    + intro k'. destruct (kind_eqb k' k) eqn:Ek; apply Hn.
Qed.

Lemma holds_ext b P P' q : (forall k id r, content b k id = Some r -> (P k id <-> P' k id)) -> holds b P q -> holds b P' q.
Proof.
  intros E [H N]. split; [|exact N]. intros k id r. rewrite H. split; intros [A B]; split; auto; apply (E k id r A); auto.
Qed.

Lemma collect1_ok b i q P : wf b -> holds b P q -> (exists k r, content b k (snd i) = Some r /\ alt_of k = fst i) ->
  exists q', collect1 b i q = Ok q' /\ holds b (fun k id => P k id \/ (alt_of k, id) = i) q'.
Proof.
  intros W H (k & r & A & B).
  assert (G : exists q', take b k (snd i) q = Ok q' /\ holds b (fun k' id => P k' id \/ (alt_of k', id) = i) q').
  { destruct (take_ok b k (snd i) q P r H A) as (q' & E & H'). exists q'. split; [exact E|].
    eapply holds_ext; [|exact H']. intros k' id x Hx. cbn beta. split.
    - intros [K|[-> ->]]; auto. right. destruct i; cbn in *; congruence.
    - intros [K|K]; auto. right. subst i. cbn [fst snd] in *. split; [|reflexivity].
      eapply (wf_one b W); eauto. }
  unfold collect1. rewrite <- B. destruct k; cbn [alt_of]; auto.
  - destruct (mhas Nat.eqb (snd i) (rules b RangeValue)) eqn:M; auto.
    apply mhas_true in M. destruct M as (v & M). exfalso.
    assert (DiscreteValue = RangeValue) by (eapply (wf_one b W); eauto; reflexivity). discriminate.
  - assert (M : mhas Nat.eqb (snd i) (rules b RangeValue) = true) by (apply mhas_true; eauto). rewrite M. auto.
Qed.

Lemma collect_ok b l : wf b -> forall q P, holds b P q ->
  (forall i, In i l -> exists k r, content b k (snd i) = Some r /\ alt_of k = fst i) ->
  exists q', collect b l q = Ok q' /\ holds b (fun k id => P k id \/ In (alt_of k, id) l) q'.
Proof.
  intro W. induction l as [|i l IH]; intros q P H A; cbn [collect].
  - exists q. split; [reflexivity|]. eapply holds_ext; [|exact H]. intros; simpl; tauto.
  - destruct (collect1_ok b i q P W H) as (q1 & E & H1); [apply A; left; reflexivity|]. rewrite E. cbn [obind].
    destruct (IH q1 _ H1) as (q2 & E2 & H2); [intros j Hj; apply A; right; exact Hj|]. exists q2. split; [exact E2|].
    eapply holds_ext; [|exact H2]. intros k id r _. simpl. intuition congruence.
Qed.

Lemma find_ranges_ok b rs tol : wf b -> idx b -> (0 <= tol)%Q ->
  (forall k id r, content b k id = Some r -> zone_valid r) -> (forall r, In r rs -> lvalid r) ->
  forall q P, holds b P q ->
  exists q', find_ranges b rs tol q = Ok q' /\
    holds b (fun k id => P k id \/ exists r, content b k id = Some r /\ rnear tol (r_zone r) rs) q'.
Proof.
  intros W I T V. induction rs as [|x rs IH]; intros Vr q P H; cbn [find_ranges].
  - exists q. split; [reflexivity|]. eapply holds_ext; [|exact H]. intros. split; auto.
    intros [K|(r' & _ & (a & c & _ & [] & _))]; auto.
  - destruct (find_entries_ok (lane_entries (lane_id x) b) (s_range x) tol) as (l & El & Hl); auto.
    { apply Vr. left. reflexivity. }
    { intros i s Hin. apply I in Hin. destruct Hin as (k & r & A & _ & D).
      pose proof (V k (snd i) r A _ D) as Q. exact Q. }
    rewrite El. cbn [obind].
    destruct (collect_ok b l W q P H) as (q1 & E1 & H1).
    { intros i Hi. apply Hl in Hi. destruct Hi as (s & Hs & _). apply I in Hs. destruct Hs as (k & r & A & B & _). eauto. }
    rewrite E1. cbn [obind].
    destruct (IH (fun r Hr => Vr r (or_intror Hr)) q1 _ H1) as (q2 & E2 & H2). exists q2. split; [exact E2|].
    eapply holds_ext; [|exact H2]. intros k id r Hc. cbn beta. split.
    + intros [[K|K]|(r' & Hr' & (z & y & Hz & Hy & Hn))]; auto.
      * right. exists r. split; [exact Hc|]. apply Hl in K. destruct K as (s & Hs & Hn). apply I in Hs.
        destruct Hs as (k' & r' & A & B & D). cbn [fst snd] in *. assert (k' = k) by (eapply (wf_one b W); eauto). subst k'.
        assert (r' = r) by congruence. subst r'. exists (mk_lsrange (lane_id x) s), x. split; [exact D|]. split; [left; reflexivity|].
        split; [reflexivity|exact Hn].
      * right. exists r'. split; [exact Hr'|]. exists z, y. split; [exact Hz|]. split; [right; exact Hy|exact Hn].
    + intros [K|(r' & Hr' & (z & y & Hz & [Hy|Hy] & Hn))]; auto.
      * left. right. subst y. apply Hl. exists (s_range z). destruct Hn as [Hn1 Hn2]. split; [|exact Hn2].
        apply I. exists k, r'. cbn [fst snd]. split; [exact Hr'|]. split; [reflexivity|].
        rewrite <- Hn1. destruct z; exact Hz.
      * right. exists r'. split; [exact Hr'|]. exists z, y. auto.
Qed.

Lemma FindRules_ok b rs tol : wf b -> idx b ->
  (forall k id r, content b k id = Some r -> zone_valid r) -> (forall r, In r rs -> lvalid r) -> (0 <= tol)%Q ->
  exists q, FindRules b rs tol = Ok q /\ (forall k, NoDup (map fst (q k))) /\
    forall k id r, mfind Nat.eqb id (q k) = Some r <-> content b k id = Some r /\ rnear tol (r_zone r) rs.
Proof.
  intros W I V Vr T. unfold FindRules, throw_unless. destruct (Qleb_spec 0 tol) as [_|K]; [|exfalso; apply (Qlt_not_le _ _ K T)].
  destruct (find_ranges_ok b rs tol W I T V Vr (fun _ => []) (fun _ _ => False)) as (q & E & H & N).
  { split; [|intros; constructor]. intros k id r. simpl. split; [discriminate|tauto]. }
  exists q. split; [exact E|]. split; [exact N|]. intros k id r. rewrite H. split.
  - intros [A [[]|(r' & B & C)]]. split; [exact A|]. congruence.
  - intros [A B]. split; [exact A|]. right. exists r. auto.
Qed.

(** ** Replay *)
Lemma run_snoc h o : act_run step (h ++ [o]) empty = fst (step o (act_run step h empty)).
Proof. rewrite act_run_app. reflexivity. Qed.

Lemma replay_run h : (forall o, In o h -> op_rule lanes_once o) -> replay h (content (act_run step h empty)).
Proof.
  induction h as [|o h IH] using rev_ind; intro H; [apply replay_nil|].
  assert (Hh : forall o, In o h -> op_rule lanes_once o) by (intros x Hx; apply H; apply in_or_app; auto).
  rewrite run_snoc. eapply replay_snoc; [apply IH; exact Hh|].
  apply good_step; [apply good_run; exact Hh|]. apply H. apply in_or_app. right. left. reflexivity.
Qed.

Lemma effect_functional o c1 c2 d1 d2 k1 k2 : (forall k id, c1 k id = c2 k id) ->
  effect o c1 d1 k1 -> effect o c2 d2 k2 -> k1 = k2 /\ forall k id, d1 k id = d2 k id.
Proof.
  intros E A B.
  assert (T : forall k id, taken c1 k id <-> taken c2 k id).
  { intros k id. split; intros (k' & r & S & Q); exists k', r; split; auto; [rewrite <- E|rewrite E]; exact Q. }
  destruct A; inversion B; subst; (split; [try reflexivity|]);
    try (intros; repeat match goal with H : forall k id, ?c k id = _ |- context [?c _ _] => rewrite H end; reflexivity);
    exfalso;
    try match goal with H : ~ taken _ _ _, K : taken _ _ _ |- _ => apply H; apply T; exact K end;
    match goal with H : exists k r, alt_of k = _ /\ _, K : forall k r, alt_of k = _ -> _ |- _ =>
      destruct H as (kx & rx & Ha & Hc); apply (K kx rx Ha); rewrite <- Hc; congruence end.
Qed.

Lemma replay_functional h c1 : replay h c1 -> forall c2, replay h c2 -> forall k id, c1 k id = c2 k id.
Proof.
  induction 1 as [|h o c c' ok R IH E]; intros c2 R2.
  - inversion R2; [reflexivity|]. destruct h; discriminate.
  - inversion R2; [destruct h; discriminate|]. apply app_inj_tail in H. destruct H as [-> ->].
    specialize (IH _ H0). eapply effect_functional; eauto.
Qed.

Lemma content_added h : forall k id r, content (act_run step h empty) k id = Some r -> In (Add k r) h.
Proof.
  induction h as [|o h IH] using rev_ind; intros k id r H; [discriminate H|].
  rewrite run_snoc in H. destruct (run_wf h) as [W N]. pose proof (step_post o _ W N) as P.
  destruct (step o (act_run step h empty)) as [b' ok]. cbn [fst] in H. destruct P as (_ & _ & E & F & _).
  apply in_or_app. destruct ok.
  - specialize (E eq_refl).
    inversion E as [k0 r0 c c' NT Q|k0 r0 c c' NT Q|a0 id0 c c' Ex Q|a0 id0 c c' Ab Q|c c' Q]; subst; rewrite Q in H.
    + destruct (kind_eqb k k0 && Nat.eqb id (r_id r0)) eqn:C.
      * inversion H; subst. apply andb_true_iff in C. destruct C as [C _]. apply kind_eqb_ok in C. subst. right. left. reflexivity.
      * left. eapply IH; eauto.
    + destruct (alt_eqb (alt_of k) a0 && Nat.eqb id id0); [discriminate|]. left. eapply IH; eauto.
    + discriminate.
  - rewrite F in H by reflexivity. left. eapply IH; eauto.
Qed.

Lemma GetRule_content b k id r : GetRule k id b = Ok r <-> content b k id = Some r.
Proof. unfold GetRule, content. destruct (mfind Nat.eqb id (rules b k)); split; intro H; inversion H; reflexivity. Qed.
Lemma GetRule_absent b k id : GetRule k id b = Throw <-> content b k id = None.
Proof. unfold GetRule, content. destruct (mfind Nat.eqb id (rules b k)); split; intro H; inversion H; reflexivity. Qed.
Lemma GetRule_same b b' k id : content b' k id = content b k id <-> GetRule k id b' = GetRule k id b.
Proof.
  unfold GetRule, content. destruct (mfind Nat.eqb id (rules b' k)), (mfind Nat.eqb id (rules b k));
    split; intro H; inversion H; reflexivity.
Qed.
