(** Lemmas for the loaders: phase rings. *)
From Coq Require Import String List Bool Arith ZArith Lia.
From Verif Require Import Base Maps Loaders_Model Loaders_Spec Loaders_Proofs.
Import ListNotations.
Local Open Scope string_scope.

Lemma seqb_ok : forall a b : string, String.eqb a b = true <-> a = b.
Proof. exact String.eqb_eq. Qed.
Lemma key_ok : forall a b, key_eqb a b = true <-> a = b.
Proof. intros [[x y] z] [[u v] w]. unfold key_eqb. rewrite !andb_true_iff, !String.eqb_eq. split; [intros [[-> ->] ->]; auto|intros [= -> -> ->]; auto]. Qed.

Section Rings.
Context {D : Type} (to_double : string -> option D) (null_text : option string) {R : Type}.
Notation text := (text null_text).
Notation ident := (ident null_text).
Notation dvalue := (dvalue (R := R)).
Notation rules := (rules (R := R)).
Notation listed := (listed null_text).

Lemma find_called : forall (vs : list dvalue) s v, find (fun v => fst v =? s) vs = Some v <-> value_called vs s v.
Proof.
  intros vs s v. unfold value_called. induction vs as [|w vs IH]; cbn.
  - split; [discriminate|]. intros (l1 & l2 & E & _). destruct l1; discriminate.
  - destruct (String.eqb_spec (fst w) s) as [E|N].
    + split.
      * intros [= <-]. exists [], vs. split; [reflexivity|]. split; [exact E|]. intros x [].
      * intros (l1 & l2 & F & G & H). destruct l1 as [|x l1]; cbn in F; injection F as F1 F2; [congruence|]. subst x. exfalso. apply (H w); [left; auto|exact E].
    + rewrite IH. split; intros (l1 & l2 & F & G & H).
      * exists (w :: l1), l2. subst vs. split; [reflexivity|]. split; auto. intros x [<-|I]; auto.
      * destruct l1 as [|x l1]; cbn in F; injection F as F1 F2; [congruence|]. exists l1, l2. split; auto. split; auto. intros y I. apply H. right. exact I.
Qed.
Lemma find_no {A} : forall (f : A -> bool) l, find f l = None <-> forall x, In x l -> f x = false.
Proof.
  intros f l. split; [apply find_none|]. induction l as [|x l IH]; intro H; [reflexivity|]. cbn. rewrite (H x (or_introl eq_refl)). apply IH. intros y I. apply H. right. exact I.
Qed.
Lemma find_uncalled : forall (vs : list dvalue) s, find (fun v => fst v =? s) vs = None <-> forall w, In w vs -> fst w <> s.
Proof. intros vs s. rewrite find_no. split; intros H w I; [apply String.eqb_neq|apply String.eqb_neq]; auto. Qed.
Lemma default_ok : forall (vs : list dvalue) v, GetDefaultState vs = Ok v <-> default_value vs v.
Proof.
  intros vs v. unfold GetDefaultState, default_value. rewrite <- !find_called.
  destruct (find (fun v => fst v =? "Stop") vs) as [w|] eqn:E1.
  { split; [intros [= <-]; auto|]. pose proof (find_some _ _ E1) as [I F]. apply String.eqb_eq in F.
    intros [H|[[_ H]|[_ H]]]; [injection H as ->; reflexivity| |]; exfalso; specialize (H w I); tauto. }
  rewrite find_uncalled in E1. destruct (find (fun v => fst v =? "StopThenGo") vs) as [w|] eqn:E2.
  { split; [intros [= <-]; auto|]. pose proof (find_some _ _ E2) as [I F]. apply String.eqb_eq in F.
    intros [H|[[H _]|[_ H]]]; [discriminate|injection H as ->; reflexivity|]; exfalso; specialize (H w I); tauto. }
  rewrite find_uncalled in E2. destruct (find (fun v => fst v =? "Go") vs) as [w|] eqn:E3.
  { split; [intros [= <-]|]; [right; right; split; auto; intros x I; split; auto|]. intros [H|[[H _]|[H _]]]; [discriminate|discriminate|injection H as ->; reflexivity]. }
  split; [discriminate|]. intros [H|[[H _]|[H _]]]; discriminate.
Qed.
Lemma default_ub : forall vs : list dvalue, GetDefaultState vs = UB <-> forall v, In v vs -> fst v <> "Stop" /\ fst v <> "StopThenGo" /\ fst v <> "Go".
Proof.
  intros vs. unfold GetDefaultState.
  destruct (find (fun v => fst v =? "Stop") vs) as [w|] eqn:E1.
  { split; [discriminate|]. intro H. exfalso. apply find_some in E1. destruct E1 as [I E]. apply String.eqb_eq in E. specialize (H w I). tauto. }
  destruct (find (fun v => fst v =? "StopThenGo") vs) as [w|] eqn:E2.
  { split; [discriminate|]. intro H. exfalso. apply find_some in E2. destruct E2 as [I E]. apply String.eqb_eq in E. specialize (H w I). tauto. }
  destruct (find (fun v => fst v =? "Go") vs) as [w|] eqn:E3.
  { split; [discriminate|]. intro H. exfalso. apply find_some in E3. destruct E3 as [I E]. apply String.eqb_eq in E. specialize (H w I). tauto. }
  rewrite find_uncalled in E1, E2, E3. split; auto.
Qed.
Lemma default_not_throw : forall vs : list dvalue, GetDefaultState vs <> Throw.
Proof. intro vs. unfold GetDefaultState. repeat (match goal with |- context [find ?f vs] => destruct (find f vs) end; try discriminate). Qed.

(** ** The rules of the ring *)
Lemma get_rules_ok : forall (book : rules) l acc, NoDup (map fst book) -> NoDup (map fst acc) -> (forall id vs, In (id, vs) acc -> In (id, vs) book) -> forall rs,
  get_rules null_text book l acc = Ok rs ->
  NoDup (map fst rs) /\ (forall id vs, In (id, vs) rs <-> In (id, vs) acc \/ exists e, In e l /\ text e id /\ In (id, vs) book) /\
  (forall e, In e l -> exists id vs, ident e id /\ In (id, vs) book).
Proof.
  intros book l. induction l as [|n l IH]; intros acc Nb Na Inc rs H; cbn [get_rules] in H.
  - injection H as <-. split; auto. split; [|intros e []]. intros id vs. split; auto. intros [I|(e & [] & _)]. exact I.
  - rewrite obind_ok in H. destruct H as (id & Ei & H). rewrite obind_ok in H. destruct H as (st & Es & H).
    rewrite conv_ok in Es. apply (mfind_in _ seqb_ok) in Es. rewrite as_id_ok in Ei. pose proof Ei as [Et _].
    assert (U : forall vs, In (id, vs) book -> vs = st).
    { intros vs I. apply (mfind_nodup _ seqb_ok) in I; auto. apply (mfind_nodup _ seqb_ok) in Es; auto. congruence. }
    set (acc' := if mhas String.eqb id acc then acc else (acc ++ [(id, st)])%list) in *.
    assert (A : forall i vs, In (i, vs) acc' <-> In (i, vs) acc \/ (i = id /\ vs = st)).
    { intros i vs. unfold acc'. destruct (mhas String.eqb id acc) eqn:Hh.
      - split; auto. intros [I|[-> ->]]; auto. apply (mhas_true _) in Hh. destruct Hh as (v & Hv). apply (mfind_in _ seqb_ok) in Hv.
        pose proof (U _ (Inc _ _ Hv)) as ->. exact Hv.
      - rewrite in_app_iff. cbn. split; [intros [I|[E|[]]]; auto; injection E as <- <-; auto|intros [I|[-> ->]]; auto]. }
    specialize (IH acc' Nb). destruct IH with (rs := rs) as (N & I & P); auto.
    + unfold acc'. destruct (mhas String.eqb id acc) eqn:Hh; auto. rewrite map_app. cbn.
      apply (NoDup_Add (a := id) (l := map fst acc)); [rewrite <- (app_nil_r (map fst acc)) at 1; apply Add_app|]. split; auto.
      rewrite <- (mhas_in _ seqb_ok). rewrite Hh. discriminate.
    + intros i vs. rewrite A. intros [J|[-> ->]]; auto.
    + split; auto. split.
      * intros i vs. rewrite I, A. split.
        -- intros [[J|[-> ->]]|(e & J & T & B)]; auto.
           ++ right. exists n. split; [left; auto|]. auto.
           ++ right. exists e. split; [right; auto|]. auto.
        -- intros [J|(e & [<-|J] & T & B)]; auto.
           ++ left. right. assert (i = id) by exact (text_fun null_text _ _ _ T Et). subst i. split; auto.
           ++ right. exists e. auto.
      * intros e [<-|J]; [exists id, st; auto|]. apply P. exact J.
Qed.
Lemma get_rules_complete : forall (book : rules) l acc, NoDup (map fst book) -> (forall e, In e l -> exists id vs, ident e id /\ In (id, vs) book) ->
  exists rs, get_rules null_text book l acc = Ok rs.
Proof.
  intros book l. induction l as [|n l IH]; intros acc Nb H; cbn [get_rules]; [eauto|].
  destruct (H n (or_introl eq_refl)) as (id & vs & Ei & I). rewrite <- as_id_ok in Ei. rewrite Ei. cbn [obind].
  apply (mfind_nodup _ seqb_ok) in I; auto. rewrite I. cbn [conv obind]. apply IH; auto. intros e J. apply H. right. exact J.
Qed.
Lemma right_of_way_rules_ok : forall (book : rules) n rn rs, NoDup (map fst book) -> get n "Rules" = Ok rn -> GetRightOfWayTypeRules null_text book rn = Ok rs ->
  NoDup (map fst rs) /\ (forall id vs, In (id, vs) rs <-> listed book n id vs) /\
  exists l, entry n "Rules" (Seq l) /\ (book <> [] -> forall e, In e l -> exists id vs, ident e id /\ In (id, vs) book).
Proof.
  intros book n rn rs Nb G H. unfold GetRightOfWayTypeRules in H. rewrite throw_unless_ok, is_seq_iff in H. destruct H as [E H].
  rewrite E in G. apply get_entry in G; [|discriminate]. unfold Loaders_Spec.listed. destruct book as [|r0 book'] eqn:Eb.
  - injection H as <-. split; [constructor|]. split.
    + intros id vs. split; [intros []|]. intros (l & e & _ & _ & _ & []).
    + exists (elements rn). split; auto. congruence.
  - rewrite <- Eb in *. apply get_rules_ok in H; auto; [|constructor|intros ? ? []]. destruct H as (N & I & P). split; auto. split.
    + intros id vs. rewrite I. split.
      * intros [[]|(e & J & T & B)]. exists (elements rn), e. auto.
      * intros (l & e & El & J & T & B). right. exists e. pose proof (entry_functional _ _ _ _ G El) as F. injection F as <-. auto.
    + exists (elements rn). split; auto.
Qed.
Lemma defaults_ok : forall (rs : rules) d, CreateDefaultRuleStates rs = Ok d <-> Forall2 (fun r p => fst p = fst r /\ default_value (snd r) (snd p)) rs d.
Proof.
  intros rs d. unfold CreateDefaultRuleStates. rewrite each_ok_ok. apply Forall2_iff. intros r p. rewrite omap_ok. split.
  - intros (v & E & <-). cbn. split; auto. apply default_ok. exact E.
  - intros [E F]. exists (snd p). split; [apply default_ok; exact F|]. rewrite <- E. destruct p; reflexivity.
Qed.
Lemma defaults_keys : forall (rs : rules) d, CreateDefaultRuleStates rs = Ok d -> map fst d = map fst rs.
Proof. intros rs d H. apply defaults_ok in H. induction H as [|r p l m [E _] F IH]; cbn; congruence. Qed.
Lemma defaults_find : forall (rs : rules) d, CreateDefaultRuleStates rs = Ok d -> forall id v, mfind String.eqb id d = Some v -> exists vs, In (id, vs) rs /\ default_value vs v.
Proof.
  intros rs d H id v E. apply defaults_ok in H. apply (mfind_in _ seqb_ok) in E. induction H as [|r p l m [F G] H IH]; [destruct E|].
  destruct E as [->|E].
  - exists (snd r). cbn in *. split; auto. left. destruct r. cbn in *. congruence.
  - destruct (IH E) as (vs & A & B). exists vs. split; auto. right. exact A.
Qed.

(** ** States of rules *)
Lemma set_rules_ok : forall (rs : rules) l acc acc', NoDup (map fst rs) -> set_rules null_text rs l acc = Ok acc' ->
  map fst acc' = map fst acc /\
  (forall id, (not_written null_text l id /\ mfind String.eqb id acc' = mfind String.eqb id acc) \/
              (exists s vs v, last_written null_text l id s /\ In (id, vs) rs /\ value_called vs s v /\ mfind String.eqb id acc' = Some v)) /\
  (forall p, In p l -> exists id s vs v, ident (fst p) id /\ text (snd p) s /\ In (id, vs) rs /\ In v vs /\ fst v = s).
Proof.
  intros rs l. induction l as [|[kn vn] l IH]; intros acc acc' Nd H; cbn [set_rules] in H.
  - injection H as <-. split; auto. split; [|intros p []]. intro id. left. split; auto. intros p [].
  - rewrite obind_ok in H. destruct H as (id & E1 & H). rewrite obind_ok in H. destruct H as (s & E2 & H). rewrite obind_ok in H. destruct H as (vs & E3 & H).
    rewrite obind_ok in H. destruct H as (v & E4 & H). rewrite throw_unless_ok in H. destruct H as [E5 H].
    rewrite as_id_ok in E1. rewrite as_string_ok in E2. rewrite conv_ok in E3. rewrite conv_ok in E4. apply find_called in E4. apply (mfind_in _ seqb_ok) in E3.
    apply IH in H; auto. destruct H as (K & L & P). pose proof E1 as [T _].
    split; [rewrite K, (mset_keys _ seqb_ok), E5; auto|]. split.
    + intro i. destruct (L i) as [[N M]|(s' & vs' & v' & (l1 & l2 & k & w & El & Tk & Tw & N) & I & C & F)].
      * destruct (string_dec id i) as [->|Ne].
        -- right. exists s, vs, v. split; [exists [], l, kn, vn; auto|]. split; auto. split; auto. rewrite M. apply (mfind_set_eq _ seqb_ok).
        -- left. split; [|rewrite M; apply (mfind_set_neq _ seqb_ok); exact Ne]. intros p [<-|J]; [|apply N; exact J]. cbn. intro T'. apply Ne. exact (text_fun null_text _ _ _ T T').
      * right. exists s', vs', v'. split; auto. exists ((kn, vn) :: l1), l2, k, w. subst l. auto.
    + intros p [<-|J]; [|apply P; exact J]. exists id, s, vs, v. destruct E4 as (l1 & l2 & -> & F & _). split; auto. split; auto. split; auto. split; auto. apply in_or_app. right. left. auto.
Qed.
Lemma set_rules_complete : forall (rs : rules) l acc, NoDup (map fst rs) -> map fst acc = map fst rs ->
  (forall p, In p l -> exists id s vs v, ident (fst p) id /\ text (snd p) s /\ In (id, vs) rs /\ In v vs /\ fst v = s) ->
  exists acc', set_rules null_text rs l acc = Ok acc'.
Proof.
  intros rs l. induction l as [|[kn vn] l IH]; intros acc Nd K H; cbn [set_rules]; [eauto|].
  destruct (H (kn, vn) (or_introl eq_refl)) as (id & s & vs & v & E1 & E2 & E3 & E4 & E5). cbn in E1, E2.
  rewrite <- as_id_ok in E1. rewrite <- as_string_ok in E2. rewrite E1. cbn [obind]. rewrite E2. cbn [obind].
  pose proof E3 as E3'. apply (mfind_nodup _ seqb_ok) in E3; auto. rewrite E3. cbn [conv obind].
  destruct (find (fun v => fst v =? s) vs) as [w|] eqn:F; [|rewrite find_uncalled in F; exfalso; exact (F v E4 E5)]. cbn [conv obind].
  assert (Hh : mhas String.eqb id acc = true) by (apply (mhas_in _ seqb_ok); rewrite K; change id with (fst (id, vs)); apply in_map; exact E3').
  rewrite Hh. cbn [throw_unless]. apply IH; auto.
  - rewrite (mset_keys _ seqb_ok), Hh. exact K.
  - intros p I. apply H. right. exact I.
Qed.
Lemma set_rules_no_ub : forall (rs : rules) l acc, set_rules null_text rs l acc <> UB.
Proof.
  intros rs l. induction l as [|[kn vn] l IH]; intros acc; cbn [set_rules]; [discriminate|].
  apply obind_no_ub; [apply as_id_no_ub|intros ? _]. apply obind_no_ub; [apply as_string_no_ub|intros ? _]. apply obind_no_ub; [apply conv_no_ub|intros ? _].
  apply obind_no_ub; [apply conv_no_ub|intros ? _]. apply throw_unless_no_ub. intros _. apply IH.
Qed.
End Rings.
