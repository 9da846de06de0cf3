(** C84, C85: phase rings over right of way rules, and intersections. *)
From Coq Require Import String List Bool Arith ZArith Lia.
From Verif Require Import Base Maps Loaders_Model Loaders_Spec Loaders_Proofs Loaders_Proofs2 Loaders_Proofs4 Loaders_Proofs5 UniqueId_Model RuleLoaders_Model RuleLoaders_Spec RuleLoaders_Proofs RuleLoaders_Proofs2 RuleLoaders_Proofs3 RuleLoaders_Proofs4 RuleLoaders_Proofs5 RuleLoaders_Props RuleLoaders_Props2.
Import ListNotations.
Local Open Scope string_scope.

(** ** C84: phase rings over right of way rules *)
(** The rulebooks of the loader of those rules are as the loader of rings needs them. *)
Theorem old_rulebook_is_paired {D} (to_double : string -> option D) null_text Dleb zero lane_length : Dleb zero zero = true ->
  forall n b, tidy_old_rulebook n -> LoadRoadRulebookOldRules to_double null_text Dleb zero lane_length n = Ok b -> paired b.
Proof. intros Z n b T H. apply (old_rulebook_loaded _ _ _ _ _ Z) in H; auto. exact (old_rulebook_paired _ _ _ _ _ _ _ H). Qed.
Print Assumptions old_rulebook_is_paired.

(** A ring is accepted exactly when it is well formed. *)
Theorem old_ring_accepted {D} (to_double : string -> option D) null_text : forall (b : rulebook (D := D)) lights n, paired b -> good_book lights ->
  ((exists r, BuildPhaseRingOldRules to_double null_text b lights n = Ok r) <-> old_ring_ok to_double null_text b lights n).
Proof.
  intros b lights n Pb Gb. split; [|apply BuildPhaseRingOldRules_complete; assumption]. intros ([[id ps] next] & H). apply BuildPhaseRingOldRules_ok in H; auto. apply H.
Qed.
Print Assumptions old_ring_accepted.

(** Its phases are those written: each has the state of every rule of the ring, the one it
    writes or the default whatever the phases before it write, the value of the derived rule
    that belongs to the state, and the bulbs. *)
Theorem old_ring_phases {D} (to_double : string -> option D) null_text : forall (b : rulebook (D := D)) lights n id ps next, paired b -> good_book lights ->
  BuildPhaseRingOldRules to_double null_text b lights n = Ok (id, ps, next) ->
  ident_at null_text n "ID" id /\ exists pl, phase_nodes n pl /\ Forall2 (denotes_old_phase null_text b lights n) pl ps.
Proof. intros b lights n id ps next Pb Gb H. apply BuildPhaseRingOldRules_ok in H; auto. destruct H as (_ & H1 & H2 & _). auto. Qed.
Print Assumptions old_ring_phases.

(** Its transitions are those written, between phases of the ring. *)
Theorem old_ring_transitions {D} (to_double : string -> option D) null_text : forall (b : rulebook (D := D)) lights n id ps next, paired b -> good_book lights ->
  BuildPhaseRingOldRules to_double null_text b lights n = Ok (id, ps, next) ->
  match next with None => absent n "PhaseTransitionGraph" | Some x => exists gn, entry n "PhaseTransitionGraph" gn /\ denotes_graph to_double null_text gn x end.
Proof. intros b lights n id ps next Pb Gb H. apply BuildPhaseRingOldRules_ok in H; auto. apply H. Qed.
Print Assumptions old_ring_transitions.

(** No document makes the loader abort. *)
Theorem old_ring_never_aborts {D} (to_double : string -> option D) null_text : forall (b : rulebook (D := D)) lights n, paired b -> good_book lights ->
  BuildPhaseRingOldRules to_double null_text b lights n <> UB.
Proof. intros. apply BuildPhaseRingOldRules_no_ub; assumption. Qed.
Print Assumptions old_ring_never_aborts.

(** ** A ring with two phases *)
Definition state_doc (id : string) (l : list (string * yaml)) : yaml := mp [("ID", sc id); ("RightOfWayRuleStates", mp l)].
Definition ring_doc (rules : list string) (phases : list yaml) : yaml := mp [("ID", sc "ring"); ("Rules", Seq (map Scalar rules)); ("Phases", Seq phases)].
Definition demo_old_ring : yaml := ring_doc ["r"] [state_doc "p0" [("r", sc "Go")]; state_doc "p1" []].
Definition go_value : dval := mk_dval 0 [("Vehicle-Stop-In-Zone-Behavior Rule Type", ["Vehicle-Stop-In-Zone-Behavior Rule Type/r"]); ("Yield Group", ["Right-Of-Way Rule Type/q"])] [("Bulb Group", ["t-g"])] "Go".
Definition stop_value : dval := mk_dval 0 [("Vehicle-Stop-In-Zone-Behavior Rule Type", ["Vehicle-Stop-In-Zone-Behavior Rule Type/r"]); ("Yield Group", [])] [("Bulb Group", ["t-g"])] "Stop".
(** The second phase does not mention the rule: it is back at its default, not at Go. *)
Example demo_old_ring_loaded : paired demo_old /\ BuildPhaseRingOldRules dd None demo_old [] demo_old_ring =
  Ok ("ring", [mk_old_phase "p0" [("r", "Go")] [("Right-Of-Way Rule Type/r", go_value)] None; mk_old_phase "p1" [("r", "Stop")] [("Right-Of-Way Rule Type/r", stop_value)] None], None).
Proof. split; [exact (old_rulebook_is_paired dd None Nat.leb 0 one_lane eq_refl _ _ demo_old_tidy demo_old_loaded)|vm_compute; reflexivity]. Qed.
(** Refused: a rule that is not in the rulebook, a state the rule does not have, a phase about a
    rule that is not of the ring, a phase without states. *)
Example demo_old_ring_refused :
  BuildPhaseRingOldRules dd None demo_old [] (ring_doc ["x"] []) = Throw /\ BuildPhaseRingOldRules dd None demo_old [] (ring_doc ["r"] [state_doc "p0" [("r", sc "StopThenGo")]]) = Throw /\
  BuildPhaseRingOldRules dd None demo_old [] (ring_doc [] [state_doc "p0" [("r", sc "Go")]]) = Throw /\ BuildPhaseRingOldRules dd None demo_old [] (ring_doc ["r"] [mp [("ID", sc "p0")]]) = Throw.
Proof. repeat split. Qed.
(** The two loaders of rings disagree on a phase that does not mention a rule: here it is at its
    default, in the other it keeps the state of the phase before (phase_ring_defaults_refuted). *)
Theorem ring_loaders_disagree_refuted : exists n ps ps' p p' v,
  BuildPhaseRingOldRules dd None demo_old [] n = Ok ("ring", ps, None) /\
  BuildPhaseRing dd None [("r", [("Go", tt); ("Stop", tt)])] ([] : list (traffic_light (D := nat))) n = Ok ("ring", ps', None) /\
  nth_error ps 1 = Some p /\ nth_error ps' 1 = Some p' /\ In ("r", "Stop") (op_rows p) /\ In ("r", v) (lp_rules p') /\ fst v = "Go".
Proof.
  exists demo_old_ring. do 5 eexists. split; [vm_compute; reflexivity|]. split; [vm_compute; reflexivity|]. split; [reflexivity|]. split; [reflexivity|]. split; [left; reflexivity|]. split; [left; reflexivity|]. reflexivity.
Qed.
Print Assumptions ring_loaders_disagree_refuted.

(** ** C85: intersections *)
Section Intersections.
Context {D : Type} (null_text : option string).
Notation rulebook := (rulebook (D := D)).
Notation pring := (pring (D := D)).
Notation pprovider := (pprovider (D := D)).
Lemma book_cases : forall moves (b : rulebook) (rings : list (string * pring)) n (m : pprovider),
  (~ a_map n /\ LoadIntersectionBook null_text moves b rings n m = (Throw, m)) \/
  (a_map n /\ absent n "Intersections" /\ LoadIntersectionBook null_text moves b rings n m = (Ok [], m)) \/
  (exists es, entry n "Intersections" (Seq es) /\ LoadIntersectionBook null_text moves b rings n m = load_intersections null_text moves b rings es [] m) \/
  (exists v, entry n "Intersections" v /\ (forall es, v <> Seq es) /\ LoadIntersectionBook null_text moves b rings n m = (Throw, m)).
Proof.
  intros moves b rings n m. destruct n as [| | | |l]; try (left; split; [intros (l' & X); discriminate|reflexivity]). right. unfold LoadIntersectionBook.
  destruct (lookup "Intersections" l) as [| |s|es|l'] eqn:E.
  - left. split; [exists l; reflexivity|]. split; [|reflexivity]. apply get_absent. cbn. rewrite E. reflexivity.
  - right. right. exists Null. split; [apply lookup_entry; [discriminate|exact E]|]. split; [discriminate|reflexivity].
  - right. right. exists (Scalar s). split; [apply lookup_entry; [discriminate|exact E]|]. split; [discriminate|reflexivity].
  - right. left. exists es. split; [apply lookup_entry; [discriminate|exact E]|reflexivity].
  - right. right. exists (Map l'). split; [apply lookup_entry; [discriminate|exact E]|]. split; [discriminate|reflexivity].
Qed.
Lemma book_list : forall moves (b : rulebook) (rings : list (string * pring)) es (m : pprovider), good_rulebook b -> good_rings rings -> NoDup (map fst m) ->
  exists res m', load_intersections null_text moves b rings es [] m = (res, m') /\
    ((exists is, res = Ok is /\ Forall2 (described null_text b rings) es is /\ NoDup (map in_id is) /\ provided null_text rings es m m') \/
     (exists l1 n l2 is, es = (l1 ++ n :: l2)%list /\ Forall2 (described null_text b rings) l1 is /\ NoDup (map in_id is) /\
        ((res = Throw /\ provided null_text rings l1 m m' /\ (forall id rid pid ring, ~ names null_text rings n id rid pid ring)) \/
         (res = Throw /\ provided null_text rings (l1 ++ [n]) m m' /\ (forall i, ~ described null_text b rings n i)) \/
         (exists i, res = (if moves then UB else Throw) /\ provided null_text rings (l1 ++ [n]) m m' /\ described null_text b rings n i /\ In (in_id i) (map in_id is))))).
Proof.
  intros moves b rings es m Gb Gr N. destruct (load_cases null_text moves b rings m Gb Gr es [] [] m) as (res & m' & E & H); [constructor|constructor|apply provided_nil; exact N|].
  exists res, m'. split; [exact E|]. exact H.
Qed.
(** The book that is loaded: one intersection for each node, in order, with the region of the
    rules of its ring; all ids different. *)
Theorem intersections_loaded : forall moves (b : rulebook) (rings : list (string * pring)) n (m : pprovider) is, good_rulebook b -> good_rings rings -> NoDup (map fst m) ->
  (fst (LoadIntersectionBook null_text moves b rings n m) = Ok is <->
   (a_map n /\ absent n "Intersections" /\ is = []) \/
   exists es, entry n "Intersections" (Seq es) /\ Forall2 (denotes_intersection null_text b rings) es is /\ NoDup (map in_id is)).
Proof.
  intros moves b rings n m is Gb Gr N. destruct (book_cases moves b rings n m) as [[A ->]|[(A & B & ->)|[(es & E & ->)|(v & E & Ne & ->)]]]; cbn [fst].
  - split; [discriminate|]. intros [(X & _)|(es & X & _)]; [contradiction|destruct (A (entry_map _ _ _ X))].
  - split; [intros [= <-]; auto|]. intros [(_ & _ & ->)|(es & X & _)]; [reflexivity|destruct (B _ X)].
  - destruct (book_list moves b rings es m Gb Gr N) as (res & m' & -> & H). cbn [fst]. split.
    + intros ->. right. exists es. split; [exact E|]. destruct H as [(is' & X & F & Nd & _)|(l1 & e & l2 & is' & _ & _ & _ & [(X & _)|[(X & _)|(i & X & _)]])]; [injection X as <-; auto|discriminate|discriminate|destruct moves; discriminate].
    + intros [(_ & X & _)|(es' & X & F & Nd)]; [destruct (X _ E)|]. pose proof (entry_functional _ _ _ _ E X) as Y. injection Y as <-.
      assert (U : forall (l : list yaml) is1 is2, Forall2 (described null_text b rings) l is1 -> Forall2 (described null_text b rings) l is2 -> is1 = is2).
      { intros l is1 is2 F1. revert is2. induction F1 as [|x i l is1 H1 F1 IH]; intros is2 F2; inversion F2; subst; [reflexivity|]. f_equal; [exact (described_fun _ _ _ _ _ _ Gb Gr H1 H3)|auto]. }
      destruct H as [(is' & -> & F' & _)|(l1 & e & l2 & is' & -> & F' & _ & H)]; [rewrite (U _ _ _ F F'); reflexivity|]. exfalso.
      apply Forall2_app_inv_l in F. destruct F as (is1 & is2 & F1 & F2 & ->). inversion F2 as [|? i ? is3 Hi F3]; subst. rewrite (U _ _ _ F' F1) in H.
      destruct H as [(_ & _ & K)|[(_ & _ & K)|(i' & _ & _ & K & J)]].
      * apply denotes_names in Hi. destruct Hi as (pid & ring & Hn & _). exact (K _ _ _ _ Hn).
      * exact (K _ Hi).
      * pose proof (described_fun _ _ _ _ _ _ Gb Gr K Hi) as ->. rewrite map_app in Nd. cbn [map] in Nd. apply NoDup_remove_2 in Nd. apply Nd. apply in_or_app. left. exact J.
  - split; [discriminate|]. intros [(_ & X & _)|(es' & X & _)]; [destruct (X _ E)|]. pose proof (entry_functional _ _ _ _ E X) as Y. destruct (Ne _ Y).
Qed.
(** What the phase provider says afterwards: of each ring of an intersection, the initial phase
    (of the last such intersection) with the first transition of the ring from there; of other
    rings, what it said before. *)
Theorem intersections_provided : forall moves (b : rulebook) (rings : list (string * pring)) n (m : pprovider) is, good_rulebook b -> good_rings rings -> NoDup (map fst m) ->
  fst (LoadIntersectionBook null_text moves b rings n m) = Ok is ->
  (absent n "Intersections" /\ snd (LoadIntersectionBook null_text moves b rings n m) = m) \/
  exists es, entry n "Intersections" (Seq es) /\ provided null_text rings es m (snd (LoadIntersectionBook null_text moves b rings n m)).
Proof.
  intros moves b rings n m is Gb Gr N. destruct (book_cases moves b rings n m) as [[A ->]|[(A & B & ->)|[(es & E & ->)|(v & E & Ne & ->)]]]; cbn [fst snd]; try discriminate; [auto|].
  destruct (book_list moves b rings es m Gb Gr N) as (res & m' & -> & H). cbn [fst snd]. intros ->. right. exists es. split; [exact E|].
  destruct H as [(is' & _ & _ & _ & P)|(l1 & e & l2 & is' & _ & _ & _ & [(X & _)|[(X & _)|(i & X & _)]])]; [exact P|discriminate|discriminate|destruct moves; discriminate].
Qed.
(** Also when the document is refused the provider has been changed, by its first intersections. *)
Theorem intersections_refused_provided : forall moves (b : rulebook) (rings : list (string * pring)) n (m : pprovider), good_rulebook b -> good_rings rings -> NoDup (map fst m) ->
  fst (LoadIntersectionBook null_text moves b rings n m) = Throw ->
  snd (LoadIntersectionBook null_text moves b rings n m) = m \/
  exists l1 l2, entry n "Intersections" (Seq (l1 ++ l2)) /\ provided null_text rings l1 m (snd (LoadIntersectionBook null_text moves b rings n m)).
Proof.
  intros moves b rings n m Gb Gr N. destruct (book_cases moves b rings n m) as [[A ->]|[(A & B & ->)|[(es & E & ->)|(v & E & Ne & ->)]]]; cbn [fst snd]; auto.
  destruct (book_list moves b rings es m Gb Gr N) as (res & m' & -> & H). cbn [fst snd]. intros ->. right.
  destruct H as [(is' & X & _)|(l1 & e & l2 & is' & -> & _ & _ & [(_ & P & _)|[(_ & P & _)|(i & _ & P & _)]])]; [discriminate|exists l1, (e :: l2); auto| |]; exists (l1 ++ [e])%list, l2; rewrite <- app_assoc; auto.
Qed.
(** A null pointer is only followed for two intersections with the same id. *)
Theorem intersections_abort_only : forall moves (b : rulebook) (rings : list (string * pring)) n (m : pprovider), good_rulebook b -> good_rings rings -> NoDup (map fst m) ->
  (fst (LoadIntersectionBook null_text moves b rings n m) = UB <->
   moves = true /\ exists l1 e l2 is i, entry n "Intersections" (Seq (l1 ++ e :: l2)) /\ Forall2 (denotes_intersection null_text b rings) l1 is /\ NoDup (map in_id is) /\
     denotes_intersection null_text b rings e i /\ In (in_id i) (map in_id is)).
Proof.
  intros moves b rings n m Gb Gr N. destruct (book_cases moves b rings n m) as [[A ->]|[(A & B & ->)|[(es & E & ->)|(v & E & Ne & ->)]]]; cbn [fst].
  - split; [discriminate|]. intros (_ & l1 & e & l2 & is & i & X & _). destruct (A (entry_map _ _ _ X)).
  - split; [discriminate|]. intros (_ & l1 & e & l2 & is & i & X & _). destruct (B _ X).
  - destruct (book_list moves b rings es m Gb Gr N) as (res & m' & -> & H). cbn [fst]. split.
    + intros ->. destruct H as [(is' & X & _)|(l1 & e & l2 & is' & -> & F & Nd & [(X & _)|[(X & _)|(i & X & _ & Hi & J)]])]; try discriminate. destruct moves; [|discriminate]. split; [reflexivity|]. exists l1, e, l2, is', i. auto.
    + intros (-> & l1 & e & l2 & is & i & X & F & Nd & Hi & J). pose proof (entry_functional _ _ _ _ E X) as Y. injection Y as ->.
      assert (U : forall (l : list yaml) is1 is2, Forall2 (described null_text b rings) l is1 -> Forall2 (described null_text b rings) l is2 -> is1 = is2).
      { intros l is1 is2 F1. revert is2. induction F1 as [|x k l is1 H1 F1 IH]; intros is2 F2; inversion F2; subst; [reflexivity|]. f_equal; [exact (described_fun _ _ _ _ _ _ Gb Gr H1 H3)|auto]. }
      destruct H as [(is' & _ & F' & Nd' & _)|(k1 & f & k2 & is' & El & F' & Nd' & H)].
      * exfalso. apply Forall2_app_inv_l in F'. destruct F' as (is1 & is2 & F1 & F2 & ->). inversion F2 as [|? i' ? is3 Hi' F3]; subst. rewrite (U _ _ _ F F1) in J. pose proof (described_fun _ _ _ _ _ _ Gb Gr Hi Hi') as ->.
        rewrite map_app in Nd'. cbn [map] in Nd'. apply NoDup_remove_2 in Nd'. apply Nd'. apply in_or_app. auto.
      * (* the first failure is at the same element *)
        assert (P : (k1 = l1 /\ f = e) \/ (exists q, l1 = (k1 ++ f :: q)%list) \/ exists q, k1 = (l1 ++ e :: q)%list).
        { clear -El. revert k1 El. induction l1 as [|a l1 IH]; intros [|c k1] El; cbn in El; injection El as E1 E2.
          - subst. auto.
          - subst. right. right. exists k1. reflexivity.
          - subst. right. left. exists l1. reflexivity.
          - subst c. destruct (IH k1 E2) as [[-> ->]|[(q & ->)|(q & ->)]]; [auto|right; left; exists q; reflexivity|right; right; exists q; reflexivity]. }
        destruct P as [[-> ->]|[(q & ->)|(q & ->)]].
        -- destruct H as [(_ & _ & K)|[(_ & _ & K)|(i' & -> & _)]]; [|destruct (K _ Hi)|reflexivity]. apply denotes_names in Hi. destruct Hi as (pid & ring & Hn & _). destruct (K _ _ _ _ Hn).
        -- exfalso. apply Forall2_app_inv_l in F. destruct F as (is1 & is2 & F1 & F2 & ->). inversion F2 as [|? i' ? is3 Hi' F3]; subst.
           destruct H as [(_ & _ & K)|[(_ & _ & K)|(i2 & _ & _ & K & J')]].
           ++ apply denotes_names in Hi'. destruct Hi' as (pid & ring & Hn & _). exact (K _ _ _ _ Hn).
           ++ exact (K _ Hi').
           ++ pose proof (described_fun _ _ _ _ _ _ Gb Gr K Hi') as ->. rewrite (U _ _ _ F' F1) in J'. rewrite map_app in Nd. cbn [map] in Nd. apply NoDup_remove_2 in Nd. apply Nd. apply in_or_app. auto.
        -- exfalso. apply Forall2_app_inv_l in F'. destruct F' as (is1 & is2 & F1 & F2 & ->). inversion F2 as [|? i' ? is3 Hi' F3]; subst. pose proof (described_fun _ _ _ _ _ _ Gb Gr Hi Hi') as ->.
           rewrite (U _ _ _ F F1) in J. rewrite map_app in Nd'. cbn [map] in Nd'. apply NoDup_remove_2 in Nd'. apply Nd'. apply in_or_app. auto.
  - split; [discriminate|]. intros (_ & l1 & e & l2 & is & i & X & _). pose proof (entry_functional _ _ _ _ E X) as Y. destruct (Ne _ Y).
Qed.
End Intersections.
Print Assumptions intersections_loaded.
Print Assumptions intersections_provided.
Print Assumptions intersections_refused_provided.
Print Assumptions intersections_abort_only.

(** ** Two intersections *)
Definition cross_rings : list (string * pring (D := nat)) :=
  [("ring", mk_pring [("p0", (["Right-Of-Way Rule Type/r"], ["r"])); ("p1", (["Right-Of-Way Rule Type/r"], ["r"]))] [("p0", [("p1", Some 2); ("p0", None)]); ("p1", [])]);
   ("other", mk_pring [("q0", ([], ["r"]))] [("q0", [])])].
Definition cross_doc (id ring ph : string) : yaml := mp [("ID", sc id); ("PhaseRing", sc ring); ("InitialPhase", sc ph)].
Definition cross_book (l : list yaml) : yaml := mp [("Intersections", Seq l)].
Definition load_cross (moves : bool) (l : list yaml) (m : pprovider (D := nat)) := LoadIntersectionBook None moves demo_old cross_rings (cross_book l) m.
Example cross_good : good_rulebook demo_old /\ good_rings cross_rings.
Proof.
  split; [split; repeat constructor; cbn; intuition discriminate|]. split; [repeat constructor; cbn; intuition discriminate|].
  intros rid r [E|[E|[]]]; injection E as <- <-; (split; [repeat constructor; cbn; intuition discriminate|]; split; [repeat constructor; cbn; intuition discriminate|reflexivity]).
Qed.
Example cross_loaded : load_cross true [cross_doc "i" "ring" "p0"; cross_doc "j" "other" "q0"] [("ring", ("p1", None)); ("third", ("t", None))] =
  (Ok [mk_intersection "i" [mk_lane_range "l" 0 1] "ring"; mk_intersection "j" [mk_lane_range "l" 0 1] "other"], [("ring", ("p0", Some ("p1", Some 2))); ("third", ("t", None)); ("other", ("q0", None))]).
Proof. vm_compute. reflexivity. Qed.
(** Refused documents change the provider all the same. *)
Theorem intersections_refused_unchanged_refuted : exists l m, good_rulebook demo_old /\ good_rings cross_rings /\ NoDup (map fst m) /\
  fst (load_cross false l m) = Throw /\ snd (load_cross false l m) <> m.
Proof.
  exists [cross_doc "i" "ring" "p0"; cross_doc "j" "nowhere" "q0"], []. split; [apply cross_good|]. split; [apply cross_good|]. split; [constructor|]. split; [vm_compute; reflexivity|]. vm_compute. discriminate.
Qed.
Print Assumptions intersections_refused_unchanged_refuted.
(** Two intersections at a ring: the first one does not start at its initial phase. *)
Theorem intersections_initial_phase_refuted : exists l is m e i, load_cross false l [] = (Ok is, m) /\ In e l /\ In i is /\ ident_at None e "ID" (in_id i) /\
  ident_at None e "InitialPhase" "p0" /\ mfind String.eqb (in_ring i) m = Some ("p1", None).
Proof.
  exists [cross_doc "i" "ring" "p0"; cross_doc "j" "ring" "p1"]. do 2 eexists. exists (cross_doc "i" "ring" "p0"), (mk_intersection "i" [mk_lane_range "l" 0 1] "ring"). split; [vm_compute; reflexivity|]. split; [left; reflexivity|]. split; [left; reflexivity|].
  split; [exists (sc "i"); split; [apply lookup_entry; [discriminate|reflexivity]|split; [left; reflexivity|discriminate]]|].
  split; [exists (sc "p0"); split; [apply lookup_entry; [discriminate|reflexivity]|split; [left; reflexivity|discriminate]]|]. reflexivity.
Qed.
Print Assumptions intersections_initial_phase_refuted.
Example cross_abort : fst (load_cross true [cross_doc "i" "ring" "p0"; cross_doc "i" "other" "q0"] []) = UB.
Proof. vm_compute. reflexivity. Qed.
