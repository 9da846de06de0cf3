(** Lemmas for the loader of right of way and direction usage rules. *)
From Coq Require Import String List Bool Arith ZArith Lia.
From Verif Require Import Base Maps Loaders_Model Loaders_Spec Loaders_Proofs Loaders_Proofs2 Loaders_Proofs5 UniqueId_Model RuleLoaders_Model RuleLoaders_Spec RuleLoaders_Proofs RuleLoaders_Proofs2.
Import ListNotations.
Local Open Scope string_scope.

Lemma append_inj : forall a b c, a ++ b = a ++ c -> b = c.
Proof. intro a. induction a as [|x a IH]; intros b c H; [exact H|]. cbn in H. injection H as H. apply IH. exact H. Qed.
Lemma NoDup_map_inj {A B} : forall (f : A -> B) l, (forall x y, f x = f y -> x = y) -> NoDup (map f l) <-> NoDup l.
Proof.
  intros f l Inj. split; [apply NoDup_map_inv|]. intro N. induction N as [|x l I N IH]; cbn; constructor; auto. intro J. apply in_map_iff in J. destruct J as (y & E & Iy). apply Inj in E. subst y. contradiction.
Qed.
Lemma emplace_all_ok {V} : forall (l m m' : list (string * V)), NoDup (map fst m) ->
  emplace_all l m = Ok m' <-> NoDup (map fst (m ++ l)) /\ m' = (m ++ l)%list.
Proof.
  intro l. induction l as [|[k v] l IH]; intros m m' N; cbn [emplace_all].
  - rewrite app_nil_r. split; [intros [= <-]; auto|intros [_ ->]; auto].
  - rewrite throw_unless_ok, mhas_not. split.
    + intros [I H]. apply IH in H; [|rewrite map_app; apply NoDup_app_last; auto]. rewrite <- app_assoc in H. exact H.
    + intros [Nd ->]. rewrite map_app in Nd. cbn [map fst] in Nd. pose proof (NoDup_remove_2 _ _ _ Nd) as R. split; [intro I; apply R; apply in_or_app; auto|].
      apply IH; [rewrite map_app; apply NoDup_app_last; auto; intro I; apply R; apply in_or_app; auto|]. rewrite <- app_assoc. cbn [app]. rewrite map_app. auto.
Qed.
Lemma name_eq : forall t, rowtype_name t = name_of t.
Proof. intros []; reflexivity. Qed.

Section OldRules.
Context {D : Type}.
Variables (to_double : string -> option D) (null_text : option string) (Dleb : D -> D -> bool) (zero : D).
Variable lane_length : string -> option D.
Hypothesis zero_le : Dleb zero zero = true.
Notation text := (text null_text).
Notation ident := (ident null_text).
Notation denotes_rowrule := (denotes_rowrule to_double null_text Dleb zero lane_length).
Notation denotes_dirrule := (denotes_dirrule to_double null_text Dleb zero lane_length).

Lemma as_yield_ok : forall n y, as_yield null_text n = Ok y <-> exists l, n = Seq l /\ Forall2 ident l y.
Proof.
  intros n y. unfold as_yield. rewrite throw_unless_ok, is_seq_iff, each_ok_ok. split.
  - intros [E F]. exists (elements n). split; auto. revert F. apply Forall2_iff. intros. symmetry. apply as_id_ok.
  - intros (l & -> & F). split; auto. revert F. apply Forall2_iff. intros. apply as_id_ok.
Qed.
Lemma row_states_cons : forall t ts n ss, a_map n -> row_states null_text (t :: ts) n = Ok ss <->
  exists s1 s2, state_of_type null_text n t s1 /\ row_states null_text ts n = Ok s2 /\ ss = (s1 ++ s2)%list.
Proof.
  intros t ts n ss M. cbn [row_states]. rewrite obind_ok, name_eq. unfold state_of_type. split.
  - intros (sn & E & H). destruct (is_defined sn) eqn:Df.
    + steps H. injection H as <-. apply as_yield_ok in E0. destruct E0 as (l & -> & F). apply get_entry in E; [|discriminate].
      exists [(name_of t, (t, x))], x0. split; [right; eauto|auto].
    + exists [], ss. split; [|auto]. left. destruct sn; try discriminate. split; [apply get_absent; exact E|auto].
  - intros (s1 & s2 & [[A ->]|(l & y & E & F & ->)] & R & ->).
    + exists Undefined. split; [apply absent_undefined; auto|]. exact R.
    + exists (Seq l). split; [apply get_entry; [discriminate|exact E]|]. cbn [is_defined]. rewrite (proj2 (as_yield_ok (Seq l) y)) by eauto. cbn [obind]. rewrite R. reflexivity.
Qed.
Lemma state_count : forall l t s, state_of_type null_text (Map l) t s -> length s = (if is_defined (lookup (name_of t) l) then 1 else 0).
Proof.
  intros l t s [[A ->]|(l' & y & E & _ & ->)].
  - destruct (is_defined (lookup (name_of t) l)) eqn:Df; auto. apply entry_defined in Df. destruct Df as (v & E). destruct (A v E).
  - rewrite (proj2 (entry_defined _ _)) by eauto. reflexivity.
Qed.
Lemma only_names : forall l, tidy_map (Map l) ->
  length l = (if is_defined (lookup "Go" l) then 1 else 0) + (if is_defined (lookup "Stop" l) then 1 else 0) + (if is_defined (lookup "StopThenGo" l) then 1 else 0) <-> only_keys (Map l) state_names.
Proof.
  intros l T. destruct (T l eq_refl) as [N U].
  rewrite <- (size_only (fun _ => @None unit) (fun _ => None) l state_names N); [|repeat (constructor; [cbn; intuition discriminate|]); constructor|exact U].
  unfold state_names. cbn [filter]. destruct (is_defined (lookup "Go" l)), (is_defined (lookup "Stop" l)), (is_defined (lookup "StopThenGo" l)); reflexivity.
Qed.
Lemma BuildRightOfWayStates_ok : forall n ss, tidy_map n -> BuildRightOfWayStates null_text n = Ok ss <-> denotes_states null_text n ss.
Proof.
  intros n ss T. unfold BuildRightOfWayStates, denotes_states. split.
  - intro H. steps H. injection H as <-. apply is_map_iff in C. pose proof C as [l ->]. apply row_states_cons in E; auto. destruct E as (s1 & s2 & H1 & E & ->). apply row_states_cons in E; auto.
    destruct E as (s3 & s4 & H2 & E & ->). apply row_states_cons in E; auto. destruct E as (s5 & s6 & H3 & E & ->). cbn in E. injection E as <-. rewrite app_nil_r in *.
    split; [|exists s1, s3, s5; auto]. apply only_names; auto. apply Nat.eqb_eq in C0. cbn [ysize] in C0. rewrite !app_length, (state_count l Go), (state_count l Stop), (state_count l StopThenGo) in C0 by auto. cbn [name_of] in C0. lia.
  - intros [K (s1 & s2 & s3 & H1 & H2 & H3 & ->)]. assert (M : a_map n) by (destruct K as (l & -> & _); exists l; auto). pose proof M as [l ->]. cbn [is_map throw_unless].
    assert (R : row_states null_text [Go; Stop; StopThenGo] (Map l) = Ok (s1 ++ s2 ++ s3)%list).
    { apply row_states_cons; auto. exists s1, (s2 ++ s3)%list. split; auto. split; auto. apply row_states_cons; auto. exists s2, s3. split; auto. split; auto.
      apply row_states_cons; auto. exists s3, []. rewrite app_nil_r. auto. }
    rewrite R. cbn [obind ysize]. apply throw_unless_ok. split; auto. apply Nat.eqb_eq. apply only_names in K; auto. rewrite !app_length, (state_count l Go s1), (state_count l Stop s2), (state_count l StopThenGo s3) by auto. cbn [name_of]. lia.
Qed.
Lemma states_nodup : forall n ss, denotes_states null_text n ss -> NoDup (map fst ss) /\ NoDup (map (fun s => name_of (fst (snd s))) ss) /\ Forall (fun s => fst s = name_of (fst (snd s))) ss.
Proof.
  intros n ss [_ (s1 & s2 & s3 & H1 & H2 & H3 & ->)].
  assert (P : forall t s, state_of_type null_text n t s -> s = [] \/ exists y, s = [(name_of t, (t, y))]).
  { intros t s [[_ ->]|(l & y & _ & _ & ->)]; eauto. }
  destruct (P _ _ H1) as [->|(y1 & ->)], (P _ _ H2) as [->|(y2 & ->)], (P _ _ H3) as [->|(y3 & ->)]; cbn;
    (split; [|split]); repeat (constructor; [cbn; intuition discriminate|]); constructor.
Qed.
Lemma zonetype_ok : forall n t, a_map n -> BuildRightOfWayZoneType null_text n = Ok t <-> zonetype_at null_text n t.
Proof.
  intros n t M. unfold BuildRightOfWayZoneType, zonetype_at. rewrite obind_ok. split.
  - intros (zn & E & H). destruct (is_defined zn) eqn:Df.
    + apply defined_iff in Df. apply get_entry in E; auto. steps H. apply as_string_ok in E0. right. exists zn. split; auto.
      destruct (String.eqb_spec x "StopExcluded") as [->|]; [injection H as <-; auto|]. destruct (String.eqb_spec x "StopAllowed") as [->|]; [injection H as <-; auto|discriminate].
    + injection H as <-. left. destruct zn; try discriminate. apply get_absent in E. auto.
  - intros [[A ->]|(zn & E & T)].
    + exists Undefined. split; [apply absent_undefined; auto|auto].
    + pose proof (proj1 E) as N. exists zn. split; [apply get_entry; auto|]. rewrite (proj2 (defined_iff zn) N). apply as_string_ok in T. rewrite T. cbn [obind]. destruct t; reflexivity.
Qed.
Lemma bulb_groups_ok : forall l g g', NoDup (map fst g) -> bulb_groups null_text l g = Ok g' <->
  exists gs, Forall2 (fun p x => ident (fst p) (fst x) /\ ((exists il, snd p = Seq il /\ Forall2 ident il (snd x)) \/ (no_items (snd p) /\ snd x = []))) l gs /\ NoDup (map fst (g ++ gs)) /\ g' = (g ++ gs)%list.
Proof.
  assert (Q : forall vn ids, each_ok (as_id null_text) (items vn) = Ok ids <-> (exists il, vn = Seq il /\ Forall2 ident il ids) \/ (no_items vn /\ ids = [])).
  { intros vn ids. rewrite each_ok_ok. split.
    - intro F. assert (G : Forall2 ident (items vn) ids) by (revert F; apply Forall2_iff; intros; symmetry; apply as_id_ok).
      destruct vn as [| |s|l|[|p l]]; cbn [items map] in G; try (right; inversion G; split; [split; intros; discriminate|auto]).
      + left. eauto.
      + inversion G as [|? ? ? ? [[X|[X _]] _]]; discriminate.
    - intros [(il & -> & F)|[[N1 N2] ->]].
      + cbn [items]. revert F. apply Forall2_iff. intros. apply as_id_ok.
      + destruct vn as [| |s|l|[|p l]]; try constructor; [destruct (N1 l eq_refl)|destruct (N2 p l eq_refl)]. }
  intro l. induction l as [|[kn vn] l IH]; intros g g' N; cbn [bulb_groups].
  - split; [intros [= <-]; exists []; rewrite app_nil_r; auto|]. intros (gs & F & _ & ->). inversion F. rewrite app_nil_r. reflexivity.
  - split.
    + intro H. steps H. apply as_id_ok in E. apply Q in E0. apply memplace_ok in E1. destruct E1 as [I ->]. apply IH in H; [|rewrite map_app; apply NoDup_app_last; auto].
      destruct H as (gs & F & Nd & ->). rewrite <- app_assoc in *. exists ((x, x0) :: gs). split; [constructor; auto|auto].
    + intros (gs & F & Nd & ->). inversion F as [|? [k ids] ? gs' [Hk Hi] Fl]; subst. cbn [fst snd] in *. apply as_id_ok in Hk. apply Q in Hi. rewrite Hk. cbn [obind]. rewrite Hi. cbn [obind].
      rewrite map_app in Nd. cbn [map fst] in Nd. pose proof (NoDup_remove_2 _ _ _ Nd) as R.
      rewrite (proj2 (memplace_ok k ids g _) (conj (fun I => R (in_or_app _ _ _ (or_introl I))) eq_refl)). cbn [obind].
      apply IH; [rewrite map_app; apply NoDup_app_last; auto; intro I; apply R; apply in_or_app; auto|]. exists gs'. rewrite <- app_assoc. cbn [app]. rewrite map_app. auto.
Qed.
Lemma BuildRelatedBulbGroups_ok : forall n gs, a_map n -> BuildRelatedBulbGroups null_text n = Ok gs <-> bulb_groups_at null_text n gs.
Proof.
  intros n gs M. unfold BuildRelatedBulbGroups, bulb_groups_at. rewrite obind_ok. split.
  - intros (gn & E & H). destruct (is_defined gn) eqn:Df.
    + steps H. apply is_map_iff in C. destruct C as [l ->]. apply get_entry in E; [|discriminate]. cbn [pairs] in H. apply bulb_groups_ok in H; [|constructor]. destruct H as (gs' & F & N & ->). right. exists l. auto.
    + injection H as <-. left. destruct gn; try discriminate. apply get_absent in E. auto.
  - intros [[A ->]|(l & E & N & F)].
    + exists Undefined. split; [apply absent_undefined; auto|auto].
    + exists (Map l). split; [apply get_entry; [discriminate|auto]|]. cbn [is_defined is_map throw_unless pairs]. apply bulb_groups_ok; [constructor|]. exists gs. auto.
Qed.
Lemma BuildRightOfWayRule_ok : forall n r, (forall m, entry n "States" m -> tidy_map m) ->
  BuildRightOfWayRule to_double null_text Dleb zero lane_length n = Ok r <-> denotes_rowrule n r.
Proof.
  intros n r T. unfold BuildRightOfWayRule, RuleLoaders_Spec.denotes_rowrule. split.
  - intro H. steps H. apply is_map_iff in C. pose proof E1 as E1'. apply need_ok in E1'. apply BuildRightOfWayStates_ok in E2; [|apply T; exact E1'].
    apply zonetype_ok in E5; auto. apply BuildRelatedBulbGroups_ok in E6; auto. unfold RightOfWayRule in H. steps H. injection H as <-.
    apply emplace_all_ok in E7; [|constructor]. destruct E7 as [_ ->]. cbn [app rw_id rw_states rw_zone rw_zonetype rw_groups].
    split; [apply ident_need; eauto|]. split; [eauto|]. split; [intros ->; discriminate|]. split; [apply zone_need; eauto|]. split; [auto|]. split; [auto|].
    apply Forall_forall. intros g I. rewrite forallb_forall in C1. apply count_one. apply C1. exact I.
  - intros (Hi & (m & Em & Hs) & Ns & Hz & Ht & Hg & Hn).
    assert (M : a_map n) by exact (entry_map _ _ _ Em). apply ident_need in Hi. destruct Hi as (idn & Hi1 & Hi2). apply zone_need in Hz; [|exact zero_le]. destruct Hz as (zn & Hz1 & Hz2).
    destruct (states_nodup _ _ Hs) as [Nd _].
    assert (Hs' : BuildRightOfWayStates null_text m = Ok (rw_states r)) by (apply BuildRightOfWayStates_ok; auto).
    apply need_ok in Em. apply zonetype_ok in Ht; auto. apply BuildRelatedBulbGroups_ok in Hg; auto. apply is_map_iff in M. run.
    unfold RightOfWayRule. destruct (rw_states r) as [|s ss] eqn:Es; [congruence|]. cbn [length Nat.leb throw_unless]. rewrite (proj2 (emplace_all_ok (s :: ss) [] _ (NoDup_nil _)) (conj Nd eq_refl)). cbn [obind app].
    assert (Hc : forallb (fun g => forallb (fun x => Nat.eqb (count_in x (snd g)) 1) (snd g)) (rw_groups r) = true).
    { apply forallb_forall. intros g I. apply count_one. rewrite Forall_forall in Hn. auto. }
    rewrite Hc. cbn [throw_unless]. destruct r; cbn in *; subst; reflexivity.
Qed.

(** ** Derived rules *)
Definition stop_of (r : rowrule (D := D)) : drule :=
  mk_drule (GetRuleIdFrom VehicleStopInZoneBehaviorRuleTypeId (rw_id r)) VehicleStopInZoneBehaviorRuleTypeId (rw_zone r)
    [mk_dval kStrict [] [] (match rw_zonetype r with StopExcluded => "DoNotStop" | StopAllowed => "UnconstrainedParking" end)].
Definition row_of (r : rowrule (D := D)) : drule :=
  mk_drule (GetRuleIdFrom RightOfWayRuleTypeId (rw_id r)) RightOfWayRuleTypeId (rw_zone r)
    (map (fun s => row_value (rw_id r) (fst (snd s)) (snd (snd s)) (rw_groups r)) (rw_states r)).
Lemma derives_stop_iff : forall r d, derives_stop r d <-> d = stop_of r.
Proof.
  intros r d. unfold derives_stop. split.
  - destruct d as [i t z vs]. cbn. intros (-> & -> & -> & [vs' vr vi vv] & -> & E1 & E2 & E3 & E4). cbn in *. subst. reflexivity.
  - intros ->. cbn. split; [auto|]. split; [auto|]. split; [auto|]. eexists. split; [reflexivity|]. cbn. auto.
Qed.
Lemma value_iff : forall (r : rowrule (D := D)) s v, derives_value r s v <-> v = row_value (rw_id r) (fst (snd s)) (snd (snd s)) (rw_groups r).
Proof.
  intros r s v. unfold derives_value, row_value. split.
  - destruct v as [a b c d]. cbn. intros (-> & -> & -> & ->). reflexivity.
  - intros ->. cbn. auto.
Qed.
Lemma derives_row_iff : forall (r : rowrule (D := D)) d, derives_row r d <-> d = row_of r.
Proof.
  intros r d. unfold derives_row.
  assert (Q : forall ss vs, Forall2 (derives_value r) ss vs <-> vs = map (fun s => row_value (rw_id r) (fst (snd s)) (snd (snd s)) (rw_groups r)) ss).
  { intro ss. induction ss as [|s ss IH]; intro vs; cbn [map].
    - split; [intro F; inversion F; auto|intros ->; constructor].
    - split; [intro F; inversion F; subst; f_equal; [apply value_iff; auto|apply IH; auto]|]. intros ->. constructor; [apply value_iff; auto|apply IH; auto]. }
  rewrite Q. split.
  - destruct d as [i t z vs]. cbn. intros (-> & -> & -> & ->). reflexivity.
  - intros ->. cbn. auto.
Qed.
Lemma within_one : forall k x y, within [(k, x)] [(k, y)] -> incl x y.
Proof. intros k x y [_ H]. destruct (H k x (or_introl eq_refl)) as (ids & [E|[]] & I). injection E as <-. exact I. Qed.
Lemma single_pair {A} : forall (P : A -> A -> Prop) v, ForallOrdPairs P [v].
Proof. intros P v. constructor; constructor. Qed.
Lemma stop_in_zone_rule_ok : forall (r : rowrule (D := D)), stop_in_zone_rule r = Ok (stop_of r).
Proof.
  intro r. unfold stop_in_zone_rule. apply (DiscreteValueRule_ok _ _ _ _ (stop_of r)).
  - apply Forall_cons; [|apply Forall_nil]. split; apply NoDup_nil.
  - split; [|reflexivity]. split; [discriminate|]. split; [|apply single_pair]. constructor; [|constructor]. split; [intros k ids []|]. split; [intros k ids []|]. cbn. unfold kStrict. lia.
Qed.
Lemma right_of_way_type_rule_ok : forall (r : rowrule (D := D)) d, rw_states r <> [] -> NoDup (map (fun s => name_of (fst (snd s))) (rw_states r)) ->
  right_of_way_type_rule r = Ok d <-> derivable r /\ d = row_of r.
Proof.
  intros r d Ne Nd. unfold right_of_way_type_rule. rewrite DiscreteValueRule_ok.
  2:{ apply Forall_forall. intros v I. apply in_map_iff in I. destruct I as (s & <- & _). split; cbn; repeat (constructor; [cbn; intuition discriminate|]); constructor. }
  fold (row_of r).
  assert (Q : good_values (map (fun s => row_value (rw_id r) (fst (snd s)) (snd (snd s)) (rw_groups r)) (rw_states r)) <-> derivable r).
  { unfold good_values, derivable. split.
    - intros (_ & F & _). rewrite Forall_map, Forall_forall in F. split.
      + apply Forall_forall. intros s I. destruct (F s I) as (G & _). cbn [row_value dv_rules] in G. destruct (G _ _ (or_intror (or_introl eq_refl))) as [_ N].
        apply NoDup_map_inv in N. exact N.
      + destruct (rw_states r) as [|s ss]; [congruence|]. destruct (F s (or_introl eq_refl)) as (_ & G & _). cbn [row_value dv_ids] in G. destruct (G _ _ (or_introl eq_refl)) as [_ N]. exact N.
    - intros [F N]. split; [destruct (rw_states r); [congruence|discriminate]|]. split.
      + rewrite Forall_map. rewrite Forall_forall in *. intros s I. cbn [row_value dv_rules dv_ids dv_severity]. split; [|split].
        * intros k ids [E|[E|[]]]; injection E as <- <-; (split; [discriminate|]).
          -- constructor; [intros []|constructor].
          -- apply NoDup_map_inj; [|exact (F s I)]. intros x y E. unfold GetRuleIdFrom in E. apply append_inj in E. apply append_inj in E. exact E.
        * intros k ids [E|[]]. injection E as <- <-. split; [discriminate|exact N].
        * unfold kStrict. lia.
      + clear Ne F N. induction (rw_states r) as [|s ss IH]; cbn [map]; [constructor|]. cbn [map] in Nd. inversion Nd as [|? ? I N']; subst. constructor; [|auto].
        apply Forall_forall. intros v Iv. apply in_map_iff in Iv. destruct Iv as (s' & <- & Is').
        assert (Df : rowtype_name (fst (snd s)) <> rowtype_name (fst (snd s'))).
        { rewrite !name_eq. intro E. apply I. rewrite E. apply (in_map (fun s => name_of (fst (snd s)))). exact Is'. }
        split; intros (E & _); cbn [row_value dv_value] in E; congruence. }
  rewrite Q. reflexivity.
Qed.

(** ** Direction usage rules *)
Lemma dirtype_ok : forall s t, dirtype_of s = Some t <-> dirtype_called t s.
Proof.
  intros s t. unfold dirtype_of.
  repeat match goal with |- context [s =? ?c] => destruct (String.eqb_spec s c) as [->|?]; [destruct t; cbn; split; intro X; try discriminate; try contradiction; congruence|] end.
  destruct t; cbn; split; intro X; try discriminate; try contradiction; congruence.
Qed.
Lemma dirseverity_ok : forall s v, dirseverity_of s = Some v <-> s = match v with SStrict => "Strict" | SPreferred => "Preferred" end.
Proof.
  intros s v. unfold dirseverity_of.
  repeat match goal with |- context [s =? ?c] => destruct (String.eqb_spec s c) as [->|?]; [destruct v; cbn; split; intro X; try discriminate; try contradiction; congruence|] end.
  destruct v; cbn; split; intro X; try discriminate; try contradiction; congruence.
Qed.
Lemma direction_state_ok : forall n s, direction_state null_text n = Ok s <-> denotes_dirstate null_text n s.
Proof.
  intros n [id [t v]]. unfold direction_state, denotes_dirstate. cbn [fst snd]. split.
  - intro H. steps H. injection H as -> -> ->. rewrite conv_ok, dirtype_ok in E4. rewrite conv_ok, dirseverity_ok in E6. subst x5.
    split; [apply ident_need; eauto|]. split; [exists x3; split; [apply text_need; eauto|auto]|apply text_need; eauto].
  - intros (Hi & (ts & Ht & Hc) & Hv). apply ident_need in Hi. destruct Hi as (idn & Hi1 & Hi2). apply text_need in Ht. destruct Ht as (tn & Ht1 & Ht2). apply text_need in Hv. destruct Hv as (vn & Hv1 & Hv2).
    apply dirtype_ok in Hc. run. rewrite Hc. cbn [conv obind]. run. destruct v; reflexivity.
Qed.
Lemma BuildDirectionUsageRule_ok : forall n r, BuildDirectionUsageRule to_double null_text Dleb zero lane_length n = Ok r <-> denotes_dirrule n r.
Proof.
  intros n r. unfold BuildDirectionUsageRule, RuleLoaders_Spec.denotes_dirrule. split.
  - intro H. steps H. unfold DirectionUsageRule in H. steps H. injection H as <-. apply emplace_all_ok in E5; [|constructor]. destruct E5 as [Nd ->]. cbn [app du_id du_zone du_states] in *.
    apply is_seq_iff in C0. rewrite C0 in E1. apply need_ok in E1. apply need_ok in E3. apply GetLaneSRange_ok in E4; [|exact zero_le]. rewrite each_ok_ok in E2.
    split; [apply ident_need; eauto|]. split; [exists (elements x1); split; [auto|]; revert E2; apply Forall2_iff; intros; symmetry; apply direction_state_ok|]. split; [intros ->; discriminate|]. split; [auto|eauto].
  - intros (Hi & (l & El & Fl) & Ns & Nd & z & Ez & Hz). apply ident_need in Hi. destruct Hi as (idn & Hi1 & Hi2).
    assert (M : is_map n = true) by (apply is_map_iff; exact (entry_map _ _ _ Ez)). apply need_ok in El. apply need_ok in Ez. apply GetLaneSRange_ok in Hz; [|exact zero_le].
    assert (F : each_ok (direction_state null_text) l = Ok (du_states r)) by (apply each_ok_ok; revert Fl; apply Forall2_iff; intros; apply direction_state_ok).
    rewrite M, Hi1. cbn [throw_unless obind]. rewrite Hi2. cbn [obind]. rewrite El. cbn [obind is_seq throw_unless elements]. rewrite F. cbn [obind]. rewrite Ez. cbn [obind]. rewrite Hz. cbn [obind].
    unfold DirectionUsageRule. destruct (du_states r) as [|s ss] eqn:Es; [congruence|]. cbn [length Nat.leb throw_unless]. rewrite (proj2 (emplace_all_ok (s :: ss) [] _ (NoDup_nil _)) (conj Nd eq_refl)). cbn [obind app].
    destruct r; cbn in *; subst; reflexivity.
Qed.

(** ** The rulebook *)
Definition rows_book (rows : list (rowrule (D := D))) (dirs : list (dirrule (D := D))) : rulebook :=
  mk_rulebook (map (fun r => (rw_id r, r)) rows) (map (fun r => (du_id r, r)) dirs)
              (flat_map (fun r => [(dr_id (stop_of r), stop_of r); (dr_id (row_of r), row_of r)]) rows) [].
Lemma discrete_keys : forall rows dirs k, In k (map fst (bk_discrete (rows_book rows dirs))) <->
  exists id, In id (map rw_id rows) /\ (k = "Vehicle-Stop-In-Zone-Behavior Rule Type/" ++ id \/ k = "Right-Of-Way Rule Type/" ++ id).
Proof.
  intros rows dirs k. cbn [rows_book bk_discrete]. induction rows as [|r rows IH]; [cbn; split; [tauto|intros (id & [] & _)]|].
  cbn [flat_map app map]. cbn [In fst]. rewrite IH. cbn [stop_of row_of dr_id GetRuleIdFrom].
  split.
  - intros [<-|[<-|(id & I & H)]]; [exists (rw_id r); split; [auto|left; reflexivity]|exists (rw_id r); split; [auto|right; reflexivity]|exists id; auto].
  - intros (id & [<-|I] & H); [|right; right; eauto]. destruct H as [->| ->]; auto.
Qed.
Lemma add_discrete_fresh : forall d (b : rulebook (D := D)), bk_range b = [] -> ~ In (dr_id d) (map fst (bk_discrete b)) ->
  add_discrete d b = Ok (mk_rulebook (bk_rows b) (bk_dirs b) (bk_discrete b ++ [(dr_id d, d)])%list []).
Proof.
  intros d b E I. unfold add_discrete. rewrite E. cbn [mhas mfind negb throw_unless]. rewrite (proj2 (memplace_ok (dr_id d) d (bk_discrete b) (bk_discrete b ++ [(dr_id d, d)])%list) (conj I eq_refl)). reflexivity.
Qed.
Lemma load_row_ok : forall n rows b', (forall m, entry n "States" m -> tidy_map m) ->
  load_row to_double null_text Dleb zero lane_length n (rows_book rows []) = Ok b' <->
  exists r, denotes_rowrule n r /\ derivable r /\ ~ In (rw_id r) (map rw_id rows) /\ b' = rows_book (rows ++ [r]) [].
Proof.
  intros n rows b' T.
  assert (Fresh : forall r, ~ In (rw_id r) (map rw_id rows) ->
            ~ In (dr_id (stop_of r)) (map fst (bk_discrete (rows_book rows []))) /\
            ~ In (dr_id (row_of r)) (map fst (bk_discrete (rows_book rows []) ++ [(dr_id (stop_of r), stop_of r)])%list)).
  { intros r I. split.
    - rewrite discrete_keys. cbn [stop_of dr_id GetRuleIdFrom]. intros (id & J & [E|E]); [|discriminate]. change ("Vehicle-Stop-In-Zone-Behavior Rule Type/" ++ rw_id r = "Vehicle-Stop-In-Zone-Behavior Rule Type/" ++ id) in E. apply append_inj in E. subst id. contradiction.
    - rewrite map_app, in_app_iff, discrete_keys. cbn [map fst In row_of stop_of dr_id GetRuleIdFrom]. intros [(id & J & [E|E])|[E|[]]]; try discriminate.
      change ("Right-Of-Way Rule Type/" ++ rw_id r = "Right-Of-Way Rule Type/" ++ id) in E. apply append_inj in E. subst id. contradiction. }
  assert (App : forall r, rows_book (rows ++ [r]) [] = mk_rulebook (bk_rows (rows_book rows []) ++ [(rw_id r, r)])%list []
                  ((bk_discrete (rows_book rows []) ++ [(dr_id (stop_of r), stop_of r)]) ++ [(dr_id (row_of r), row_of r)])%list []).
  { intro r. unfold rows_book. cbn [bk_rows bk_discrete]. rewrite map_app, flat_map_app, <- app_assoc. reflexivity. }
  unfold load_row. split.
  - intro H. steps H. apply BuildRightOfWayRule_ok in E; auto. rewrite stop_in_zone_rule_ok in E0. injection E0 as <-.
    unfold add_row in E1. steps E1. injection E1 as <-. apply memplace_ok in E0. destruct E0 as [I ->]. cbn [rows_book bk_rows] in I. rewrite map_map in I. cbn [fst] in I.
    unfold add_discrete in E2. steps E2. injection E2 as <-. apply memplace_ok in E0. destruct E0 as [_ ->].
    destruct E as (Hi & (m & Em & Hs) & Ns & Rest). destruct (states_nodup _ _ Hs) as (_ & Nn & _). apply right_of_way_type_rule_ok in E3; auto. destruct E3 as [Dv ->].
    unfold add_discrete in H. steps H. injection H as <-. apply memplace_ok in E. destruct E as [_ ->].
    exists x. split; [split; [auto|split; [eauto|auto]]|]. split; [auto|]. split; [auto|]. rewrite App. reflexivity.
  - intros (r & Dn & Dv & I & ->). destruct (Fresh r I) as [F1 F2]. assert (B : BuildRightOfWayRule to_double null_text Dleb zero lane_length n = Ok r) by (apply BuildRightOfWayRule_ok; auto).
    rewrite B. cbn [obind]. rewrite stop_in_zone_rule_ok. cbn [obind]. unfold add_row.
    rewrite (proj2 (memplace_ok (rw_id r) r (bk_rows (rows_book rows [])) (bk_rows (rows_book rows []) ++ [(rw_id r, r)])%list)); [|split; [cbn [rows_book bk_rows]; rewrite map_map; exact I|reflexivity]]. cbn [obind].
    rewrite (add_discrete_fresh (stop_of r)); [|reflexivity|exact F1]. cbn [obind bk_rows bk_dirs bk_discrete].
    destruct Dn as (_ & (m & _ & Hs) & Ns & _). destruct (states_nodup _ _ Hs) as (_ & Nn & _).
    rewrite (proj2 (right_of_way_type_rule_ok r (row_of r) Ns Nn)); [|auto]. cbn [obind].
    rewrite (add_discrete_fresh (row_of r)); [|reflexivity|exact F2]. rewrite App. reflexivity.
Qed.
Lemma load_rows_ok : forall l rows b', (forall e m, In e l -> entry e "States" m -> tidy_map m) -> NoDup (map rw_id rows) ->
  load_rows to_double null_text Dleb zero lane_length l (rows_book rows []) = Ok b' <->
  exists rs, Forall2 denotes_rowrule l rs /\ Forall derivable rs /\ NoDup (map rw_id (rows ++ rs)) /\ b' = rows_book (rows ++ rs) [].
Proof.
  intro l. induction l as [|n l IH]; intros rows b' T N; cbn [load_rows].
  - split; [intros [= <-]; exists []; rewrite app_nil_r; auto|]. intros (rs & F & _ & _ & ->). inversion F. rewrite app_nil_r. reflexivity.
  - assert (Tl : forall e m, In e l -> entry e "States" m -> tidy_map m) by (intros e m I; apply T; right; exact I).
    assert (Tn : forall m, entry n "States" m -> tidy_map m) by (intros m; apply T; left; auto).
    rewrite obind_ok. split.
    + intros (b1 & E & H). apply load_row_ok in E; auto. destruct E as (r & Dn & Dv & I & ->).
      apply IH in H; auto; [|rewrite map_app; apply NoDup_app_last; auto]. destruct H as (rs & F & Fd & Nd & ->). rewrite <- app_assoc in *. exists (r :: rs). auto.
    + intros (rs & F & Fd & Nd & ->). inversion F as [|? r ? rs1 Dn Fl]; subst. inversion Fd; subst.
      assert (I : ~ In (rw_id r) (map rw_id rows)). { rewrite map_app in Nd. apply NoDup_remove_2 in Nd. intro I. apply Nd. apply in_or_app. auto. }
      exists (rows_book (rows ++ [r]) []). split; [apply load_row_ok; auto; exists r; auto|].
      apply IH; auto; [rewrite map_app; apply NoDup_app_last; auto|]. exists rs1. rewrite <- app_assoc. auto.
Qed.
Lemma load_dirs_ok : forall l rows dirs b', NoDup (map du_id dirs) ->
  load_dirs to_double null_text Dleb zero lane_length l (rows_book rows dirs) = Ok b' <->
  exists rs, Forall2 denotes_dirrule l rs /\ NoDup (map du_id (dirs ++ rs)) /\ b' = rows_book rows (dirs ++ rs).
Proof.
  intro l. induction l as [|n l IH]; intros rows dirs b' N; cbn [load_dirs].
  - split; [intros [= <-]; exists []; rewrite app_nil_r; auto|]. intros (rs & F & _ & ->). inversion F. rewrite app_nil_r. reflexivity.
  - assert (Add : forall r b1, add_dir r (rows_book rows dirs) = Ok b1 <-> ~ In (du_id r) (map du_id dirs) /\ b1 = rows_book rows (dirs ++ [r])).
    { intros r b1. unfold add_dir. rewrite obind_ok. cbn [rows_book bk_dirs bk_rows bk_discrete bk_range]. setoid_rewrite memplace_ok. rewrite map_map. cbn [fst]. unfold rows_book. rewrite map_app. cbn [map]. split.
      - intros (m & [I ->] & E). injection E as <-. auto.
      - intros [I ->]. eexists. auto. }
    split.
    + intro H. steps H. apply BuildDirectionUsageRule_ok in E. apply Add in E0. destruct E0 as [I ->].
      apply IH in H; auto; [|rewrite map_app; apply NoDup_app_last; auto]. destruct H as (rs & F & Nd & ->). rewrite <- app_assoc in *. exists (x :: rs). auto.
    + intros (rs & F & Nd & ->). inversion F as [|? r ? rs1 Dn Fl]; subst. apply BuildDirectionUsageRule_ok in Dn. rewrite Dn. cbn [obind].
      assert (I : ~ In (du_id r) (map du_id dirs)). { rewrite map_app in Nd. apply NoDup_remove_2 in Nd. intro I. apply Nd. apply in_or_app. auto. }
      rewrite (proj2 (Add r _) (conj I eq_refl)). cbn [obind]. apply IH; auto; [rewrite map_app; apply NoDup_app_last; auto|]. exists rs1. rewrite <- app_assoc. auto.
Qed.
Lemma derived_iff : forall rows ds, Forall2 (fun r (sd : drule * drule) => derives_stop r (fst sd) /\ derives_row r (snd sd)) rows ds <-> ds = map (fun r => (stop_of r, row_of r)) rows.
Proof.
  intro rows. induction rows as [|r rows IH]; intro ds; cbn [map].
  - split; [intro F; inversion F; auto|intros ->; constructor].
  - split.
    + intro F. inversion F as [|? [s d] ? ds' [H1 H2] Fl]; subst. cbn [fst snd] in *. apply derives_stop_iff in H1. apply derives_row_iff in H2. subst. f_equal. apply IH. exact Fl.
    + intros ->. constructor; [cbn; rewrite derives_stop_iff, derives_row_iff; auto|apply IH; auto].
Qed.
Lemma flat_map_map {A B C} : forall (f : B -> list C) (g : A -> B) l, flat_map f (map g l) = flat_map (fun x => f (g x)) l.
Proof. intros f g l. induction l as [|x l IH]; cbn; [auto|]. rewrite IH. reflexivity. Qed.
Lemma LoadRoadRulebookOldRules_ok : forall n b, tidy_old_rulebook n ->
  LoadRoadRulebookOldRules to_double null_text Dleb zero lane_length n = Ok b <-> denotes_old_rulebook to_double null_text Dleb zero lane_length n b.
Proof.
  intros n b T. unfold LoadRoadRulebookOldRules, denotes_old_rulebook. split.
  - intro H. steps H. apply need_ok in E. apply need_ok in E0. apply need_ok in E2. apply is_seq_iff in C1. rewrite C1 in E0. apply is_seq_iff in C2. rewrite C2 in E2.
    change empty_book with (rows_book [] []) in E1. apply load_rows_ok in E1; [|intros e m I Em; exact (T _ _ _ _ E E0 I Em)|constructor]. destruct E1 as (rows & Fr & Fd & Nr & ->).
    cbn [app] in *. apply load_dirs_ok in H; [|constructor]. destruct H as (dirs & Fdr & Ndr & ->). cbn [app] in *.
    exists x, (elements x0), (elements x2), rows, dirs, (map (fun r => (stop_of r, row_of r)) rows). rewrite derived_iff. cbn [rows_book bk_rows bk_dirs bk_discrete bk_range]. rewrite flat_map_map. cbn [fst snd]. tauto.
  - intros (bn & rl & dl & rows & dirs & ds & E & E0 & E1 & Fr & Fd & Nr & Fdr & Ndr & Hd & H1 & H2 & H3 & H4). apply derived_iff in Hd. subst ds. rewrite flat_map_map in H3. cbn [fst snd] in H3.
    assert (Hb : b = rows_book rows dirs) by (destruct b; cbn in *; subst; reflexivity). subst b.
    assert (L : load_rows to_double null_text Dleb zero lane_length rl empty_book = Ok (rows_book rows [])).
    { change empty_book with (rows_book [] []). apply load_rows_ok; [intros e m I Em; exact (T _ _ _ _ E E0 I Em)|constructor|]. exists rows. auto. }
    rewrite (proj2 (is_map_iff n) (entry_map _ _ _ E)), (proj2 (need_ok _ _ _) E). cbn [throw_unless obind]. rewrite (proj2 (is_map_iff bn) (entry_map _ _ _ E0)), (proj2 (need_ok _ _ _) E0). cbn [throw_unless obind is_seq elements].
    rewrite L. cbn [obind]. rewrite (proj2 (need_ok _ _ _) E1). cbn [obind is_seq throw_unless elements]. apply load_dirs_ok; [constructor|]. exists dirs. auto.
Qed.
End OldRules.
