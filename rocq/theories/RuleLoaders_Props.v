(** C82, C83, C86: the rulebook a document of rules loads to. *)
From Coq Require Import String List Bool Arith ZArith Lia.
From Verif Require Import Base Maps Loaders_Model Loaders_Spec Loaders_Proofs Loaders_Proofs2 Loaders_Proofs5 UniqueId_Model RuleLoaders_Model RuleLoaders_Spec RuleLoaders_Proofs RuleLoaders_Proofs2 RuleLoaders_Proofs3 RuleLoaders_Proofs5.
Import ListNotations.
Local Open Scope string_scope.

(** Comparisons of doubles: 0 <= 0; what can be compared is no NaN; numbers are at most
    themselves; equal ones are the same (0.0 and -0.0 are one number). *)
Definition numbers {D} (Dleb Deqb : D -> D -> bool) (zero : D) : Prop :=
  Dleb zero zero = true /\ (forall x y, Dleb x y = true -> Deqb x x = true /\ Deqb y y = true) /\ (forall x, Deqb x x = true -> Dleb x x = true) /\ forall x y, Deqb x y = true -> x = y.
Example nat_numbers : numbers Nat.leb Nat.eqb 0.
Proof. split; [reflexivity|]. split; [intros x y _; rewrite !Nat.eqb_refl; auto|]. split; [intros x _; apply Nat.leb_refl|]. intros x y. apply Nat.eqb_eq. Qed.
Ltac no_ub_by tac := repeat first
  [ discriminate | tac | apply get_no_ub | apply need_no_ub | apply conv_no_ub | apply as_string_no_ub | apply as_id_no_ub | apply as_double_no_ub
  | apply obind_no_ub; [|intros ? _] | apply omap_no_ub | apply throw_unless_no_ub; intros _ | apply each_ok_no_ub; intros ? _
  | match goal with |- (if ?c then _ else _) <> UB => destruct c end ].
Ltac no_ub := no_ub_by fail.

(** ** C82: rules of registered types *)
(** The loader accepts exactly the documents that describe a rulebook, and gives that one. *)
Theorem rulebook_loaded {D} (to_double : string -> option D) to_int null_text Dleb Deqb zero lane_length : numbers Dleb Deqb zero ->
  forall reg n b, good_types reg -> tidy_rulebook n ->
  (LoadRoadRulebook to_double to_int null_text Dleb Deqb zero lane_length reg n = Ok b <-> denotes_rulebook to_double to_int null_text Dleb zero lane_length reg n b).
Proof. intros (H1 & H2 & _ & H3) reg n b. apply LoadRoadRulebook_ok; assumption. Qed.
Print Assumptions rulebook_loaded.

(** Whatever the document, it returns or throws. *)
Section NeverAborts.
Context {D : Type} (to_double : string -> option D) (to_int : string -> option Z) (null_text : option string) (Dleb Deqb : D -> D -> bool) (zero : D) (lane_length : string -> option D).
Lemma as_srange_no_ub : forall n, as_srange to_double Dleb zero n <> UB.
Proof. intro n. unfold as_srange. destruct n as [| | |[|x [|y [|z l]]]|]; no_ub. Qed.
Lemma range_no_ub : forall kl kr n, GetLaneSRange to_double null_text Dleb zero lane_length kl kr n <> UB.
Proof. intros kl kr n. unfold GetLaneSRange, GetSRange, make_srange. no_ub. apply as_srange_no_ub. Qed.
Lemma GetZone_no_ub : forall kl kr n, GetZone to_double null_text Dleb zero lane_length kl kr n <> UB.
Proof. intros kl kr n. unfold GetZone. apply throw_unless_no_ub. intros _. apply each_ok_no_ub. intros. apply range_no_ub. Qed.
Lemma severity_no_ub : forall n, GetSeverity to_int n <> UB.
Proof. intro n. unfold GetSeverity. no_ub. Qed.
Lemma push_ids_no_ub : forall kn vs g, push_ids null_text kn vs g <> UB.
Proof. intros kn vs. induction vs as [|v vs IH]; intro g; cbn [push_ids]; no_ub. apply IH. Qed.
Lemma push_pairs_no_ub : forall l g, push_pairs null_text l g <> UB.
Proof. intro l. induction l as [|[kn vn] l IH]; intro g; cbn [push_pairs]; no_ub; [apply push_ids_no_ub|apply IH]. Qed.
Lemma push_maps_no_ub : forall l g, push_maps null_text l g <> UB.
Proof. intro l. induction l as [|n l IH]; intro g; cbn [push_maps]; no_ub; [apply push_pairs_no_ub|apply IH]. Qed.
Lemma related_no_ub : forall k n, GetRelated null_text k n <> UB.
Proof. intros k n. unfold GetRelated. no_ub. apply push_maps_no_ub. Qed.
Lemma all_of_no_ub {A} : forall (f : A -> outcome bool) l, (forall x, f x <> UB) -> all_of f l <> UB.
Proof. intros f l H. induction l as [|x l IH]; cbn [all_of]; no_ub; auto. Qed.
Lemma shapes_no_ub : (forall n, IsDiscreteValue n <> UB) /\ forall n, IsRangeValue n <> UB.
Proof. split; intro n; [unfold IsDiscreteValue|unfold IsRangeValue]; unfold optional_attributes, defined_at; no_ub. Qed.
Theorem rulebook_never_aborts : forall reg n, LoadRoadRulebook to_double to_int null_text Dleb Deqb zero lane_length reg n <> UB.
Proof.
  assert (Dv : forall n, GetDiscreteValue to_int null_text n <> UB) by (intro n; unfold GetDiscreteValue; no_ub_by ltac:(first [apply severity_no_ub|apply related_no_ub])).
  assert (Rv : forall n, GetRange to_double to_int null_text Dleb n <> UB).
  { intro n. unfold GetRange. no_ub. destruct a as [| | |[|x [|y [|z l]]]|]; no_ub_by ltac:(first [apply severity_no_ub|apply related_no_ub]). }
  assert (Add : forall reg n b, AddDiscreteValueRule to_double to_int null_text Dleb zero lane_length reg n b <> UB /\ AddRangeValueRule to_double to_int null_text Dleb Deqb zero lane_length reg n b <> UB).
  { intros reg n b. unfold AddDiscreteValueRule, AddRangeValueRule, BuildDiscreteValueRule, BuildRangeValueRule, DiscreteValueRule, RangeValueRule, add_discrete, add_range.
    split; no_ub_by ltac:(first [apply Dv|apply Rv|apply GetZone_no_ub]). }
  assert (Ev : forall n, EvaluateRule n <> UB).
  { destruct shapes_no_ub as [S1 S2]. intro n. unfold EvaluateRule, IsDiscreteValueRule, IsRangeValueRule, HasBaseRuleProperties, defined_at. no_ub_by ltac:(apply all_of_no_ub; assumption). }
  assert (Ld : forall l reg b, load_rules to_double to_int null_text Dleb Deqb zero lane_length reg l b <> UB).
  { intro l. induction l as [|n l IH]; intros reg b; cbn [load_rules]; [discriminate|]. apply obind_no_ub; [|intros; apply IH]. unfold load_rule. apply obind_no_ub; [apply Ev|]. intros [] _; [discriminate|apply Add|apply Add]. }
  intros reg n. unfold LoadRoadRulebook. no_ub. apply Ld.
Qed.
End NeverAborts.
Print Assumptions rulebook_never_aborts.

(** What users rely on: distinct ids; a rule has a registered type, registered values, at least
    one, and lies on lanes of the road. *)
Theorem rulebook_sound {D} (to_double : string -> option D) to_int null_text Dleb Deqb zero lane_length : numbers Dleb Deqb zero ->
  forall reg n b, good_types reg -> tidy_rulebook n -> LoadRoadRulebook to_double to_int null_text Dleb Deqb zero lane_length reg n = Ok b ->
  NoDup (map fst (bk_discrete b)) /\ NoDup (map fst (bk_range b)) /\ (forall id, In id (map fst (bk_discrete b)) -> ~ In id (map fst (bk_range b))) /\
  (forall id r, In (id, r) (bk_discrete b) -> dr_id r = id /\ dr_values r <> [] /\
     (exists known, In (dr_type r, known) (ty_discrete reg) /\ forall v, In v (dr_values r) -> In (dv_severity v, dv_value v) known) /\
     forall z, In z (dr_zone r) -> exists len, lane_length (lr_lane z) = Some len /\ Dleb zero (lr_s0 z) = true /\ Dleb (lr_s1 z) len = true) /\
  (forall id r, In (id, r) (bk_range b) -> rr_id r = id /\ rr_ranges r <> [] /\
     (exists known, In (rr_type r, known) (ty_range reg) /\ forall v, In v (rr_ranges r) -> In (rv_severity v, rv_desc v, rv_min v, rv_max v) known) /\
     forall z, In z (rr_zone r) -> exists len, lane_length (lr_lane z) = Some len /\ Dleb zero (lr_s0 z) = true /\ Dleb (lr_s1 z) len = true).
Proof.
  intros Hn reg n b G T H. pose proof Hn as (Z0 & Le & Rf & _). apply (rulebook_loaded _ _ _ _ _ _ _ Hn) in H; auto. destruct H as (l & rs & _ & F & N & _ & _ & Ed & Er).
  assert (Zn : forall e k z, denotes_zone to_double null_text Dleb zero lane_length "lane_id" "s_range" e k z -> forall x, In x z -> exists len, lane_length (lr_lane x) = Some len /\ Dleb zero (lr_s0 x) = true /\ Dleb (lr_s1 x) len = true).
  { intros e k z (zl & _ & Fz) x I. assert (X : exists a, denotes_range to_double null_text Dleb zero lane_length "lane_id" "s_range" a x) by (clear -Fz I; induction Fz as [|a y al yl H F IH]; [destruct I|]; destruct I as [->|I]; eauto).
    destruct X as (a & _ & len & L & [(_ & -> & -> & L0)|(p & q & _ & _ & _ & A & _ & C)]); exists len; [|auto]. split; [exact L|]. split; [exact Z0|]. apply Rf. apply (Le _ _ L0). }
  assert (Dr : forall r, In r rs -> exists e, denotes_rule to_double to_int null_text Dleb zero lane_length reg e r) by (intros r I; clear -F I; induction F as [|e x el xl H F IH]; [destruct I|]; destruct I as [->|I]; eauto).
  assert (Id : forall id r, In (id, r) (bk_discrete b) -> dr_id r = id /\ In (inl r) rs).
  { intros id r I. rewrite Ed in I. apply in_flat_map in I. destruct I as ([d|x] & J & K); [|destruct K]. destruct K as [K|[]]. injection K as <- <-. auto. }
  assert (Ir : forall id r, In (id, r) (bk_range b) -> rr_id r = id /\ In (inr r) rs).
  { intros id r I. rewrite Er in I. apply in_flat_map in I. destruct I as ([d|x] & J & K); [destruct K|]. destruct K as [K|[]]. injection K as <- <-. auto. }
  assert (Nd : NoDup (map fst (bk_discrete b)) /\ NoDup (map fst (bk_range b)) /\ (forall id, In id (map fst (bk_discrete b)) -> ~ In id (map fst (bk_range b)))).
  { rewrite Ed, Er. clear -N.
    assert (S1 : forall rs id, In id (map fst (discretes (D := D) rs)) -> In id (map rule_id rs)) by (intro q; induction q as [|[d|x] q IH]; cbn; intros id I; [destruct I|destruct I as [<-|I]; auto|auto]).
    assert (S2 : forall rs id, In id (map fst (ranges (D := D) rs)) -> In id (map rule_id rs)) by (intro q; induction q as [|[d|x] q IH]; cbn; intros id I; [destruct I|auto|destruct I as [<-|I]; auto]).
    induction rs as [|[d|x] rs IH]; [split; [constructor|split; [constructor|intros id []]]| |]; cbn [map rule_id] in N; inversion N as [|? ? Ni Nr]; subst; destruct (IH Nr) as (A & B & C).
    - cbn [discretes ranges flat_map app map fst]. split; [constructor; [intro I; apply Ni, S1; exact I|exact A]|]. split; [exact B|]. intros id [<-|I]; [|exact (C id I)]. intro J. apply Ni, S2. exact J.
    - cbn [discretes ranges flat_map app map fst]. split; [exact A|]. split; [constructor; [intro I; apply Ni, S2; exact I|exact B]|]. intros id I [<-|J]; [apply Ni, S1; exact I|exact (C id I J)]. }
  destruct Nd as (N1 & N2 & N3). split; [exact N1|]. split; [exact N2|]. split; [exact N3|]. split; intros id r I.
  - apply Id in I. destruct I as [E I]. destruct (Dr _ I) as (e & _ & _ & _ & _ & Z & _ & (Ne & _) & K). split; [exact E|]. split; [exact Ne|]. split; [exact K|]. exact (Zn _ _ _ Z).
  - apply Ir in I. destruct I as [E I]. destruct (Dr _ I) as (e & _ & _ & _ & _ & Z & _ & (Ne & _) & K). split; [exact E|]. split; [exact Ne|]. split; [exact K|]. exact (Zn _ _ _ Z).
Qed.
Print Assumptions rulebook_sound.

(** ** Documents *)
Definition sc := Scalar.
Definition mp (l : list (string * yaml)) : yaml := Map (map (fun p => (Scalar (fst p), snd p)) l).
Definition dd (s : string) : option nat := if s =? "0" then Some 0 else if s =? "1" then Some 1 else if s =? "2" then Some 2 else if s =? "3" then Some 3 else None.
Definition di (s : string) : option Z := option_map Z.of_nat (dd s).
(** One lane, of length 2. *)
Definition one_lane (s : string) : option nat := if s =? "l" then Some 2 else None.
Definition zone_of (rs : list (string * string)) : yaml := Seq (map (fun r => mp [("lane_id", sc "l"); ("s_range", Seq [sc (fst r); sc (snd r)])]) rs).
Definition value_of (v : string) (related : list yaml) : yaml := mp [("value", sc v); ("severity", sc "0"); ("related_rules", Seq related); ("related_unique_ids", Seq [])].
Definition range_of (d lo hi : string) : yaml := mp [("description", sc d); ("range", Seq [sc lo; sc hi]); ("severity", sc "1"); ("related_rules", Seq []); ("related_unique_ids", Seq [])].
Definition rule_of (id type : string) (zone : yaml) (l : list (string * yaml)) : yaml := mp ([("id", sc id); ("type", sc type); ("zone", zone)] ++ l)%list.
Definition book_doc (rules : list yaml) : yaml := mp [("RoadRulebook", Seq rules)].
Definition demo_types : rule_types (D := nat) := mk_rule_types [("T", [(0%Z, "a"); (0%Z, "b")])] [("R", [(1%Z, "fast", 1, 2)])].
Definition load_demo (n : yaml) := LoadRoadRulebook dd di None Nat.leb Nat.eqb 0 one_lane demo_types n.
Definition demo_rules : list yaml :=
  [rule_of "r1" "T" (zone_of [("0", "1"); ("1", "2")]) [("values", Seq [value_of "a" [mp [("g", Seq [sc "x"; sc "y"])]; mp [("h", Seq [sc "x"])]; mp [("g", Seq [sc "z"])]]; value_of "b" []])];
   rule_of "r2" "R" (Seq [mp [("lane_id", sc "l")]]) [("ranges", Seq [range_of "fast" "1" "2"])]].
Definition demo_rulebook : rulebook (D := nat) :=
  mk_rulebook [] [] [("r1", mk_drule "r1" "T" [mk_lane_range "l" 0 1; mk_lane_range "l" 1 2] [mk_dval 0 [("g", ["x"; "y"; "z"]); ("h", ["x"])] [] "a"; mk_dval 0 [] [] "b"])]
    [("r2", mk_rrule "r2" "R" [mk_lane_range "l" 0 2] [mk_rval 1 [] [] "fast" 1 2])].
Lemma entry_lookup : forall l k v, entry (Map l) k v -> lookup k l = v.
Proof. intros l k v H. pose proof H as [N _]. apply get_entry in H; [|exact N]. cbn in H. congruence. Qed.
Lemma tidy_of : forall l, NoDup (map fst l) -> Forall (fun p => snd p <> Undefined) l -> tidy_map (Map l).
Proof. intros l N F m [= <-]. split; [exact N|]. rewrite Forall_forall in F. exact F. Qed.
Ltac tidy := apply tidy_of; [repeat constructor; cbn; intuition discriminate|repeat (apply Forall_cons; [discriminate|]); apply Forall_nil].
Example demo_rulebook_tidy : tidy_rulebook (book_doc demo_rules) /\ good_types demo_types.
Proof.
  split; [|split; repeat constructor; cbn; intuition discriminate].
  intros l e E I k l' e' K E' J. apply entry_lookup in E. vm_compute in E. injection E as <-. destruct I as [<-|[<-|[]]]; apply entry_lookup in E'; destruct K as [->| ->]; vm_compute in E'; try discriminate; injection E' as <-;
    repeat (destruct J as [<-|J]; [tidy|]); destruct J.
Qed.
Example demo_rulebook_loaded : load_demo (book_doc demo_rules) = Ok demo_rulebook.
Proof. vm_compute. reflexivity. Qed.
Example demo_rulebook_denoted : denotes_rulebook dd di None Nat.leb 0 one_lane demo_types (book_doc demo_rules) demo_rulebook.
Proof. apply (rulebook_loaded dd di None Nat.leb Nat.eqb 0 one_lane nat_numbers); [apply demo_rulebook_tidy|apply demo_rulebook_tidy|exact demo_rulebook_loaded]. Qed.
(** Refused: unknown type, unknown value, no values, same rule twice, range beyond the lane,
    unknown lane, no related rules. *)
Example demo_rulebooks_refused :
  Forall (fun l => load_demo (book_doc l) = Throw)
    [[rule_of "r" "U" (zone_of []) [("values", Seq [value_of "a" []])]]; [rule_of "r" "T" (zone_of []) [("values", Seq [value_of "c" []])]]; [rule_of "r" "T" (zone_of []) [("values", Seq [])]];
     [rule_of "r" "T" (zone_of []) [("values", Seq [value_of "a" []])]; rule_of "r" "R" (zone_of []) [("ranges", Seq [range_of "fast" "1" "2"])]];
     [rule_of "r" "T" (zone_of [("1", "3")]) [("values", Seq [value_of "a" []])]]; [rule_of "r" "T" (Seq [mp [("lane_id", sc "m")]]) [("values", Seq [value_of "a" []])]];
     [rule_of "r" "T" (zone_of []) [("values", Seq [mp [("value", sc "a"); ("severity", sc "0")]])]]].
Proof. repeat (apply Forall_cons; [vm_compute; reflexivity|]). apply Forall_nil. Qed.

(** Zones are not always on their lanes: only the end of an s range is compared with the length
    of the lane, and a range may be reversed.  Here s0 = 3 on a lane of length 2. *)
Theorem rulebook_zone_refuted : exists n b r z len,
  load_demo n = Ok b /\ In ("r", r) (bk_discrete b) /\ In z (dr_zone r) /\ one_lane (lr_lane z) = Some len /\ Nat.leb (lr_s0 z) len = false.
Proof.
  exists (book_doc [rule_of "r" "T" (zone_of [("3", "1")]) [("values", Seq [value_of "a" []])]]). do 4 eexists.
  split; [vm_compute; reflexivity|]. split; [left; reflexivity|]. split; [left; reflexivity|]. split; reflexivity.
Qed.
Print Assumptions rulebook_zone_refuted.

(** A rule with values and ranges of the right shapes becomes a range value rule: its values are
    lost without an error, even a value that is not registered. *)
Theorem rulebook_values_lost_refuted : exists e b, load_demo (book_doc [e]) = Ok b /\ (exists v, entry e "values" (Seq [v]) /\ text_at None v "value" "c") /\ bk_discrete b = [] /\ map fst (bk_range b) = ["r"].
Proof.
  exists (rule_of "r" "R" (zone_of []) [("values", Seq [value_of "c" []]); ("ranges", Seq [range_of "fast" "1" "2"])]). eexists. split; [vm_compute; reflexivity|].
  split; [|split; reflexivity]. exists (value_of "c" []). split; [apply lookup_entry; [discriminate|reflexivity]|]. exists (sc "c"). split; [apply lookup_entry; [discriminate|reflexivity]|]. left. reflexivity.
Qed.
Print Assumptions rulebook_values_lost_refuted.

(** Related rules that are not lists of ids under a key are dropped without an error, and so are
    groups without ids. *)
Theorem rulebook_related_dropped_refuted : exists l b r v, load_demo (book_doc [rule_of "r" "T" (zone_of []) [("values", Seq [value_of "a" l])]]) = Ok b /\
  In ("r", r) (bk_discrete b) /\ dr_values r = [v] /\ dv_rules v = [] /\ In (mp [("g", sc "x")]) l /\ In (sc "y") l /\ In (mp [("h", Seq [])]) l.
Proof.
  exists [mp [("g", sc "x")]; sc "y"; mp [("h", Seq [])]]. do 3 eexists. split; [vm_compute; reflexivity|]. split; [left; reflexivity|]. split; [reflexivity|]. split; [reflexivity|]. split; [left; reflexivity|]. split; [right; left; reflexivity|right; right; left; reflexivity].
Qed.
Print Assumptions rulebook_related_dropped_refuted.

(** Two values that differ in their related rules cannot both be in a rule when the ids of one
    are among the ids of the other; they can when neither is. *)
Theorem rulebook_values_contained_refuted : exists v w, v <> w /\ denotes_dval di None (value_of "a" [mp [("g", Seq [sc "x"])]]) v /\ denotes_dval di None (value_of "a" [mp [("g", Seq [sc "x"; sc "y"])]]) w /\
  load_demo (book_doc [rule_of "r" "T" (zone_of []) [("values", Seq [value_of "a" [mp [("g", Seq [sc "x"])]]; value_of "a" [mp [("g", Seq [sc "x"; sc "y"])]]])]]) = Throw /\
  exists b, load_demo (book_doc [rule_of "r" "T" (zone_of []) [("values", Seq [value_of "a" [mp [("g", Seq [sc "x"; sc "z"])]]; value_of "a" [mp [("g", Seq [sc "x"; sc "y"])]]])]]) = Ok b.
Proof.
  exists (mk_dval 0 [("g", ["x"])] [] "a"), (mk_dval 0 [("g", ["x"; "y"])] [] "a"). split; [discriminate|].
  split; [apply GetDiscreteValue_ok; vm_compute; reflexivity|]. split; [apply GetDiscreteValue_ok; vm_compute; reflexivity|]. split; [vm_compute; reflexivity|]. eexists. vm_compute. reflexivity.
Qed.
Print Assumptions rulebook_values_contained_refuted.
