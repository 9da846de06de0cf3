(** C83, C86: the rulebook of right of way and direction usage rules; the built-in rule types. *)
From Coq Require Import String List Bool Arith ZArith Lia.
From Verif Require Import Base Maps Loaders_Model Loaders_Spec Loaders_Proofs Loaders_Proofs2 Loaders_Proofs5 UniqueId_Model RuleLoaders_Model RuleLoaders_Spec RuleLoaders_Proofs RuleLoaders_Proofs2 RuleLoaders_Proofs3 RuleLoaders_Proofs5 RuleLoaders_Props.
Import ListNotations.
Local Open Scope string_scope.

(** ** C83: right of way and direction usage rules *)
(** The loader accepts exactly the documents that describe such a rulebook, and gives that one. *)
Theorem old_rulebook_loaded {D} (to_double : string -> option D) null_text Dleb zero lane_length : Dleb zero zero = true ->
  forall n b, tidy_old_rulebook n ->
  (LoadRoadRulebookOldRules to_double null_text Dleb zero lane_length n = Ok b <-> denotes_old_rulebook to_double null_text Dleb zero lane_length n b).
Proof. intro Z. apply LoadRoadRulebookOldRules_ok. exact Z. Qed.
Print Assumptions old_rulebook_loaded.

Section NeverAborts.
Context {D : Type} (to_double : string -> option D) (null_text : option string) (Dleb : D -> D -> bool) (zero : D) (lane_length : string -> option D).
Lemma row_states_no_ub : forall ts n, row_states null_text ts n <> UB.
Proof. intro ts. induction ts as [|t ts IH]; intro n; cbn [row_states]; no_ub_by ltac:(apply IH); unfold as_yield; no_ub. Qed.
Lemma bulb_groups_no_ub : forall l g, bulb_groups null_text l g <> UB.
Proof. intro l. induction l as [|[k v] l IH]; intro g; cbn [bulb_groups]; no_ub_by ltac:(apply IH). Qed.
Lemma emplace_all_no_ub {V} : forall (l m : list (string * V)), emplace_all l m <> UB.
Proof. intro l. induction l as [|[k v] l IH]; intro m; cbn [emplace_all]; no_ub_by ltac:(apply IH). Qed.
Lemma direction_state_no_ub : forall n, direction_state null_text n <> UB.
Proof. intro n. unfold direction_state. no_ub. Qed.
(** Whatever the document, it returns or throws. *)
Theorem old_rulebook_never_aborts : forall n, LoadRoadRulebookOldRules to_double null_text Dleb zero lane_length n <> UB.
Proof.
  assert (Rw : forall n, BuildRightOfWayRule to_double null_text Dleb zero lane_length n <> UB).
  { intro n. unfold BuildRightOfWayRule, BuildRightOfWayStates, BuildRightOfWayZoneType, BuildRelatedBulbGroups, RightOfWayRule.
    no_ub_by ltac:(first [apply row_states_no_ub|apply bulb_groups_no_ub|apply emplace_all_no_ub|apply GetZone_no_ub]). }
  assert (Du : forall n, BuildDirectionUsageRule to_double null_text Dleb zero lane_length n <> UB).
  { intro n. unfold BuildDirectionUsageRule, DirectionUsageRule. no_ub_by ltac:(first [apply direction_state_no_ub|apply emplace_all_no_ub|apply range_no_ub]). }
  assert (Lr : forall l b, load_rows to_double null_text Dleb zero lane_length l b <> UB).
  { intro l. induction l as [|n l IH]; intro b; cbn [load_rows]; [discriminate|]. apply obind_no_ub; [|intros; apply IH].
    unfold load_row, stop_in_zone_rule, right_of_way_type_rule, DiscreteValueRule, add_row, add_discrete. no_ub_by ltac:(apply Rw). }
  assert (Ld : forall l b, load_dirs to_double null_text Dleb zero lane_length l b <> UB).
  { intro l. induction l as [|n l IH]; intro b; cbn [load_dirs]; [discriminate|]. unfold add_dir. no_ub_by ltac:(first [apply Du|apply IH]). }
  intro n. unfold LoadRoadRulebookOldRules. no_ub_by ltac:(first [apply Lr|apply Ld]).
Qed.
End NeverAborts.
Print Assumptions old_rulebook_never_aborts.

(** Each right of way rule comes with two discrete value rules on the same zone, one for the
    behavior in the zone and one for the states, and there are no others.  The derived rules
    have distinct ids, values for exactly the states, and relate to each other. *)
Theorem old_rulebook_derived {D} (to_double : string -> option D) null_text Dleb zero lane_length : Dleb zero zero = true ->
  forall n b, tidy_old_rulebook n -> LoadRoadRulebookOldRules to_double null_text Dleb zero lane_length n = Ok b ->
  NoDup (map fst (bk_rows b)) /\ NoDup (map fst (bk_discrete b)) /\ bk_range b = [] /\
  (forall id r, In (id, r) (bk_rows b) -> rw_id r = id /\ rw_states r <> [] /\
     exists s d, derives_stop r s /\ derives_row r d /\ In ("Vehicle-Stop-In-Zone-Behavior Rule Type/" ++ id, s) (bk_discrete b) /\ In ("Right-Of-Way Rule Type/" ++ id, d) (bk_discrete b)) /\
  (forall k d, In (k, d) (bk_discrete b) -> dr_id d = k /\ exists id r, In (id, r) (bk_rows b) /\ (derives_stop r d \/ derives_row r d)).
Proof.
  intros Z n b T H. apply (old_rulebook_loaded _ _ _ _ _ Z) in H; auto. pose proof (old_rulebook_paired _ _ _ _ _ _ _ H) as (N1 & N2 & P).
  destruct H as (bn & rl & dl & rows & dirs & ds & _ & _ & _ & Fr & _ & Nr & _ & _ & Fd & Eb & _ & Ed & Er).
  split; [exact N1|]. split; [exact N2|]. split; [exact Er|]. apply derived_iff in Fd. subst ds. rewrite flat_map_map in Ed. cbn [fst snd] in Ed. split.
  - intros id r I. destruct (P id r I) as (E & Ne & _). split; [exact E|]. split; [exact Ne|]. exists (stop_of r), (row_of r). split; [apply derives_stop_iff; reflexivity|]. split; [apply derives_row_iff; reflexivity|].
    rewrite Eb in I. apply in_map_iff in I. destruct I as (r' & E' & I). injection E' as _ ->. rewrite Ed, <- E. split; apply in_flat_map; exists r; (split; [exact I|]); [left|right; left]; reflexivity.
  - intros k d I. rewrite Ed in I. apply in_flat_map in I. destruct I as (r & I & [J|[J|[]]]); injection J as <- <-; (split; [reflexivity|]); exists (rw_id r), r; (split; [rewrite Eb; apply in_map_iff; exists r; auto|]).
    + left. apply derives_stop_iff. reflexivity.
    + right. apply derives_row_iff. reflexivity.
Qed.
Print Assumptions old_rulebook_derived.

(** ** Documents *)
Definition old_zone : yaml := Seq [mp [("Lane", sc "l"); ("SRange", Seq [sc "0"; sc "1"])]].
Definition row_doc (id : string) (states : list (string * list string)) (l : list (string * yaml)) : yaml :=
  mp ([("ID", sc id); ("States", mp (map (fun s => (fst s, Seq (map Scalar (snd s)))) states)); ("Zone", old_zone)] ++ l)%list.
Definition dir_doc (id type : string) : yaml :=
  mp [("ID", sc id); ("States", Seq [mp [("ID", sc "s"); ("Type", sc type); ("Severity", sc "Strict")]]); ("Zone", mp [("Lane", sc "l")])].
Definition old_doc (rows dirs : list yaml) : yaml := mp [("RoadRulebook", mp [("RightOfWayRules", Seq rows); ("DirectionUsageRules", Seq dirs)])].
Definition load_old (n : yaml) := LoadRoadRulebookOldRules dd None Nat.leb 0 one_lane n.
Definition demo_row : yaml := row_doc "r" [("Go", ["q"]); ("Stop", [])] [("ZoneType", sc "StopAllowed"); ("RelatedBulbGroups", mp [("t", Seq [sc "g"])])].
Definition demo_old : rulebook (D := nat) :=
  mk_rulebook [("r", mk_rowrule "r" [mk_lane_range "l" 0 1] StopAllowed [("Go", (Go, ["q"])); ("Stop", (Stop, []))] [("t", ["g"])])]
    [("d", mk_dirrule "d" (mk_lane_range "l" 0 2) [("s", (WithS, SStrict))])]
    [("Vehicle-Stop-In-Zone-Behavior Rule Type/r", mk_drule "Vehicle-Stop-In-Zone-Behavior Rule Type/r" "Vehicle-Stop-In-Zone-Behavior Rule Type" [mk_lane_range "l" 0 1] [mk_dval 0 [] [] "UnconstrainedParking"]);
     ("Right-Of-Way Rule Type/r", mk_drule "Right-Of-Way Rule Type/r" "Right-Of-Way Rule Type" [mk_lane_range "l" 0 1]
        [mk_dval 0 [("Vehicle-Stop-In-Zone-Behavior Rule Type", ["Vehicle-Stop-In-Zone-Behavior Rule Type/r"]); ("Yield Group", ["Right-Of-Way Rule Type/q"])] [("Bulb Group", ["t-g"])] "Go";
         mk_dval 0 [("Vehicle-Stop-In-Zone-Behavior Rule Type", ["Vehicle-Stop-In-Zone-Behavior Rule Type/r"]); ("Yield Group", [])] [("Bulb Group", ["t-g"])] "Stop"])] [].
Example demo_old_loaded : load_old (old_doc [demo_row] [dir_doc "d" "WithS"]) = Ok demo_old.
Proof. vm_compute. reflexivity. Qed.
Lemma old_doc_tidy : forall rows dirs, (forall e m, In e rows -> entry e "States" m -> tidy_map m) -> tidy_old_rulebook (old_doc rows dirs).
Proof. intros rows dirs H bn l e m E1 E2 I E3. apply entry_lookup in E1. cbn in E1. subst bn. apply entry_lookup in E2. cbn in E2. injection E2 as <-. exact (H e m I E3). Qed.
Example demo_old_tidy : tidy_old_rulebook (old_doc [demo_row] [dir_doc "d" "WithS"]).
Proof. apply old_doc_tidy. intros e m [<-|[]] E. apply entry_lookup in E. vm_compute in E. subst m. tidy. Qed.
Example demo_old_denoted : denotes_old_rulebook dd None Nat.leb 0 one_lane (old_doc [demo_row] [dir_doc "d" "WithS"]) demo_old.
Proof. apply (old_rulebook_loaded dd None Nat.leb 0 one_lane eq_refl); [exact demo_old_tidy|exact demo_old_loaded]. Qed.
(** Refused: an unknown state, no states, an unknown lane type, two rules with one id, no
    direction usage rules, an unknown direction. *)
Example demo_old_refused :
  load_old (old_doc [row_doc "r" [("Yield", [])] []] []) = Throw /\ load_old (old_doc [row_doc "r" [] []] []) = Throw /\
  load_old (old_doc [row_doc "r" [("Go", [])] [("ZoneType", sc "Stop")]] []) = Throw /\ load_old (old_doc [row_doc "r" [("Go", [])] []; row_doc "r" [("Stop", [])] []] []) = Throw /\
  load_old (mp [("RoadRulebook", mp [("RightOfWayRules", Seq [])])]) = Throw /\ load_old (old_doc [] [dir_doc "d" "Up"]) = Throw.
Proof. repeat split. Qed.

(** Two different bulb groups can have the same unique id ("a-b-c"): then the derived rule, and
    with it the whole document, is refused although the right of way rule is fine. *)
Theorem old_rulebook_delimiter_refuted : exists e r, denotes_rowrule dd None Nat.leb 0 one_lane e r /\ Forall (fun s => NoDup (snd (snd s))) (rw_states r) /\
  NoDup (flat_map (fun g => map (fun b => (fst g, b)) (snd g)) (rw_groups r)) /\ load_old (old_doc [e] []) = Throw.
Proof.
  exists (row_doc "r" [("Go", [])] [("RelatedBulbGroups", mp [("a", Seq [sc "b-c"]); ("a-b", Seq [sc "c"])])]),
    (mk_rowrule "r" [mk_lane_range "l" 0 1] StopExcluded [("Go", (Go, []))] [("a", ["b-c"]); ("a-b", ["c"])]).
  split; [|split; [repeat constructor|split; [repeat constructor; cbn; intuition discriminate|vm_compute; reflexivity]]].
  apply BuildRightOfWayRule_ok; [reflexivity|intros m E; apply entry_lookup in E; vm_compute in E; subst m; tidy|vm_compute; reflexivity].
Qed.
Print Assumptions old_rulebook_delimiter_refuted.

(** A rule to yield to that is written twice is fine for the right of way rule but not for the
    derived one: the document is refused. *)
Theorem old_rulebook_yield_refuted : exists e r, denotes_rowrule dd None Nat.leb 0 one_lane e r /\ load_old (old_doc [e] []) = Throw.
Proof.
  exists (row_doc "r" [("Go", ["q"; "q"])] []), (mk_rowrule "r" [mk_lane_range "l" 0 1] StopExcluded [("Go", (Go, ["q"; "q"]))] []).
  split; [|vm_compute; reflexivity]. apply BuildRightOfWayRule_ok; [reflexivity|intros m E; apply entry_lookup in E; vm_compute in E; subst m; tidy|vm_compute; reflexivity].
Qed.
Print Assumptions old_rulebook_yield_refuted.

(** ** C86: the built-in rule types *)
(** Every combination of a severity and a value, once. *)
Theorem combinations_exact : forall zs vs z v, In (z, v) (GenerateEveryCombination zs vs) <-> In z zs /\ In v vs.
Proof.
  intros zs vs z v. unfold GenerateEveryCombination. rewrite in_flat_map. split.
  - intros (z' & I & J). apply in_map_iff in J. destruct J as (v' & E & J). injection E as -> ->. auto.
  - intros [I J]. exists z. split; [exact I|]. apply in_map_iff. eauto.
Qed.
Print Assumptions combinations_exact.
Theorem combinations_once : forall zs vs, NoDup zs -> NoDup vs -> NoDup (GenerateEveryCombination zs vs) /\ length (GenerateEveryCombination zs vs) = length zs * length vs.
Proof.
  intros zs vs Nz Nv. induction Nz as [|z zs I Nz [IH1 IH2]]; [split; [constructor|reflexivity]|]. cbn [GenerateEveryCombination flat_map]. fold (GenerateEveryCombination zs vs).
  split; [|rewrite app_length, map_length, IH2; cbn; lia].
  assert (A : NoDup (map (fun v => (z, v)) vs)) by (apply NoDup_map_inj; [intros x y [= ->]; reflexivity|exact Nv]).
  assert (B : forall p, In p (map (fun v => (z, v)) vs) -> ~ In p (GenerateEveryCombination zs vs)).
  { intros p J. apply in_map_iff in J. destruct J as (v & <- & _). rewrite combinations_exact. tauto. }
  clear -A B IH1. induction A as [|p l Ip A IH]; [exact IH1|]. cbn [app]. constructor; [|apply IH; intros q J; apply B; right; exact J].
  intro J. apply in_app_or in J. destruct J as [J|J]; [contradiction|]. exact (B p (or_introl eq_refl) J).
Qed.
Print Assumptions combinations_once.
Example combinations_ex : GenerateEveryCombination [0%Z; 1%Z] ["a"; "b"] = [(0%Z, "a"); (0%Z, "b"); (1%Z, "a"); (1%Z, "b")].
Proof. reflexivity. Qed.

(** The values the documentation gives, rule_registry.h 47-63, 70-87 and 94-117. *)
Definition documented_directions : list string := ["WithS"; "AgainstS"; "Bidirectional"; "BidirectionalTurnOnly"; "NoUse"; "Parking"; "Undefined"].
Definition documented_right_of_way : list string := ["Go"; "Stop"; "StopThenGo"].
Definition documented_stops : list string := ["DoNotStop"; "5MinuteStop"; "30MinuteStop"; "45MinuteStop"; "1HourStop"; "2HourStop"; "4HourStop"; "UnrestrictedParking"].
Theorem direction_usage_type_documented : forall z v, In (z, v) (snd BuildDirectionUsageRuleType) <-> z = 0%Z /\ In v documented_directions.
Proof. intros z v. unfold BuildDirectionUsageRuleType, kStrict. cbn [snd]. rewrite combinations_exact. split; [intros [[<-|[]] I]; auto|]. intros [-> I]. split; [left; reflexivity|exact I]. Qed.
Print Assumptions direction_usage_type_documented.
(** The documented value StopThenGo is not registered; StopAndGo is. *)
Theorem right_of_way_type_documented_refuted : (exists v, In v documented_right_of_way /\ forall z, ~ In (z, v) (snd BuildRightOfWayRuleType)) /\
  exists z v, In (z, v) (snd BuildRightOfWayRuleType) /\ ~ In v documented_right_of_way.
Proof.
  split; [exists "StopThenGo"; split; [cbn; auto|]; intro z; unfold BuildRightOfWayRuleType; cbn [snd]; rewrite combinations_exact; cbn; intuition discriminate|].
  exists 0%Z, "StopAndGo". split; [cbn; auto|]. cbn. intuition discriminate.
Qed.
Print Assumptions right_of_way_type_documented_refuted.
(** Of the documented values only DoNotStop is registered. *)
Theorem stop_type_documented_refuted : (exists v, In v documented_stops /\ forall z, ~ In (z, v) (snd BuildVehicleStopInZoneBehaviorRuleType)) /\
  forall v, In v documented_stops -> (exists z, In (z, v) (snd BuildVehicleStopInZoneBehaviorRuleType)) -> v = "DoNotStop".
Proof.
  split; [exists "UnrestrictedParking"; split; [cbn; auto 10|]; intro z; unfold BuildVehicleStopInZoneBehaviorRuleType; cbn [snd]; rewrite combinations_exact; cbn; intuition discriminate|].
  intros v I (z & J). unfold BuildVehicleStopInZoneBehaviorRuleType in J. cbn [snd] in J. rewrite combinations_exact in J. destruct J as [_ J].
  repeat (destruct I as [<-|I]; [cbn in J; intuition discriminate|]). destruct I.
Qed.
Print Assumptions stop_type_documented_refuted.

(** The rules derived from right of way rules fit the built-in types, except for StopThenGo. *)
Theorem derived_values_registered_partial {D} : forall (r : rowrule (D := D)) s d, derives_stop r s -> derives_row r d ->
  dr_type s = fst BuildVehicleStopInZoneBehaviorRuleType /\ dr_type d = fst BuildRightOfWayRuleType /\
  (forall v, In v (dr_values s) -> In (dv_severity v, dv_value v) (snd BuildVehicleStopInZoneBehaviorRuleType)) /\
  ((forall v, In v (dr_values d) -> In (dv_severity v, dv_value v) (snd BuildRightOfWayRuleType)) <-> forall x, In x (rw_states r) -> fst (snd x) <> StopThenGo).
Proof.
  intros r s d (_ & Ts & _ & v & Ev & Sv & _ & _ & Vv) (_ & Td & _ & F). split; [exact Ts|]. split; [exact Td|]. split.
  - intros w I. rewrite Ev in I. destruct I as [<-|[]]. rewrite Sv, Vv. destruct (rw_zonetype r); cbn; auto 10.
  - assert (Q : forall x w, derives_value r x w -> (In (dv_severity w, dv_value w) (snd BuildRightOfWayRuleType) <-> fst (snd x) <> StopThenGo)).
    { intros x w (E1 & E2 & _). rewrite E1, E2. destruct (fst (snd x)); cbn; intuition (discriminate || auto). }
    induction F as [|x w xs ws H F IH]; [split; intros _ ? []|]. split.
    + intros A y [<-|I]; [apply (Q _ _ H); apply A; left; reflexivity|]. apply IH; [intros v' J; apply A; right; exact J|exact I].
    + intros A v' [<-|I]; [apply (Q _ _ H); apply A; left; reflexivity|]. apply IH; [intros y J; apply A; right; exact J|exact I].
Qed.
Print Assumptions derived_values_registered_partial.
(** A loaded document with StopThenGo has a derived rule that the built-in registry would
    refuse to build. *)
Theorem derived_values_registered_refuted : exists n b id d, load_old n = Ok b /\ In (id, d) (bk_discrete b) /\
  BuildDiscreteValueRule (mk_rule_types [BuildRightOfWayRuleType] []) (dr_id d) (dr_type d) (dr_zone d) (dr_values d) = Throw.
Proof. exists (old_doc [row_doc "r" [("StopThenGo", [])] []] []). do 3 eexists. split; [vm_compute; reflexivity|]. split; [right; left; reflexivity|]. vm_compute. reflexivity. Qed.
Print Assumptions derived_values_registered_refuted.
(** The value Undefined of direction usage rules cannot be loaded. *)
Theorem direction_undefined_refuted : In "Undefined" documented_directions /\ load_old (old_doc [] [dir_doc "d" "Undefined"]) = Throw /\
  forall s, dirtype_of s <> Some DUndefined.
Proof.
  split; [cbn; auto 10|]. split; [vm_compute; reflexivity|]. intro s. unfold dirtype_of. repeat match goal with |- context [if ?c then _ else _] => destruct c; [discriminate|] end. discriminate.
Qed.
Print Assumptions direction_undefined_refuted.
