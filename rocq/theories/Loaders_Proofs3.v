(** Lemmas for the loaders: states of bulbs, phases and rings. *)
From Coq Require Import String List Bool Arith ZArith Lia.
From Verif Require Import Base Maps Loaders_Model Loaders_Spec Loaders_Proofs Loaders_Proofs2.
Import ListNotations.
Local Open Scope string_scope.

Section Bulbs.
Context {D : Type} (to_double : string -> option D) (null_text : option string) {R : Type}.
Notation text := (text null_text).
Notation ident := (ident null_text).
Notation bulb := (bulb (D := D)).
Notation bulb_group := (bulb_group (D := D)).
Notation traffic_light := (traffic_light (D := D)).
Notation bulb_says := (bulb_says null_text).

Lemma has_state_iff : forall s (b : bulb), existsb (bstate_eqb s) (b_states b) = true <-> In s (b_states b).
Proof.
  intros s b. rewrite existsb_exists. split.
  - intros (x & I & E). destruct s, x; try discriminate; exact I.
  - intro I. exists s. split; auto. destruct s; reflexivity.
Qed.
Lemma has_state_false : forall s (b : bulb), existsb (bstate_eqb s) (b_states b) = false <-> ~ In s (b_states b).
Proof. intros s b. rewrite <- not_true_iff_false, has_state_iff. reflexivity. Qed.
Lemma bulb_default_ok : forall (b : bulb) s, bulb_default b = Ok s <-> default_bulb_state b s.
Proof.
  intros b s. unfold bulb_default, default_bulb_state. cbn [find].
  destruct (existsb (bstate_eqb Off) (b_states b)) eqn:E1; [apply has_state_iff in E1|apply has_state_false in E1].
  { split; [intros [= <-]; auto|]. intros [I [->|[[-> N]|[-> [N _]]]]]; tauto. }
  destruct (existsb (bstate_eqb Blinking) (b_states b)) eqn:E2; [apply has_state_iff in E2|apply has_state_false in E2].
  { split; [intros [= <-]; auto 6|]. intros [I [->|[[-> N]|[-> [N M]]]]]; tauto. }
  destruct (existsb (bstate_eqb On) (b_states b)) eqn:E3; [apply has_state_iff in E3|apply has_state_false in E3].
  { split; [intros [= <-]; auto 6|]. intros [I [->|[[-> N]|[-> [N M]]]]]; tauto. }
  split; [discriminate|]. intros [I [->|[[-> N]|[-> [N M]]]]]; tauto.
Qed.
Lemma bulb_default_total : forall b : bulb, b_states b <> [] -> exists s, bulb_default b = Ok s.
Proof.
  intros b N. destruct (bulb_default b) as [s| |] eqn:E; eauto; exfalso; unfold bulb_default in E; cbn [find] in E;
    repeat (match type of E with context [if ?c then _ else _] => destruct c eqn:?; try discriminate end);
    rewrite ?has_state_false in *; destruct (b_states b) as [|[] ?]; cbn in *; tauto.
Qed.

Lemma set_bulbs_ok : forall tl (g : bulb_group) nl bs acc acc', NoDup (map b_id bs) -> set_bulbs null_text tl g (Map nl) bs acc = Ok acc' ->
  (forall b, In b bs -> exists s, bulb_says (Map nl) b s) /\
  forall key, (exists b s, In b bs /\ key = (tl, bg_id g, b_id b) /\ bulb_says (Map nl) b s /\ mfind key_eqb key acc' = Some s) \/
              ((forall b, In b bs -> key <> (tl, bg_id g, b_id b)) /\ mfind key_eqb key acc' = mfind key_eqb key acc).
Proof.
  intros tl g nl bs. induction bs as [|b bs IH]; intros acc acc' Nd H.
  - cbn in H. injection H as <-. split; [intros b []|]. intro key. right. split; [intros b []|reflexivity].
  - cbn [set_bulbs] in H. rewrite obind_ok in H. destruct H as (d & E1 & H). rewrite obind_ok in H. destruct H as (sn & E2 & H). rewrite obind_ok in H. destruct H as (st & E3 & H).
    cbn [map] in Nd. apply NoDup_cons_iff in Nd. destruct Nd as [Nb Nd]. apply IH in H; [|exact Nd]. destruct H as [Says K].
    assert (S0 : bulb_says (Map nl) b st).
    { destruct (is_defined sn) eqn:Df.
      - left. rewrite obind_ok in E3. destruct E3 as (s & F & G). rewrite conv_ok, state_ok in G. subst s. rewrite as_string_ok in F. rewrite defined_iff in Df.
        exists sn. split; auto. apply get_entry; auto.
      - right. injection E3 as <-. destruct sn; try discriminate. apply get_absent in E2. split; auto. apply bulb_default_ok. exact E1. }
    split; [intros c [<-|I]; [exists st; exact S0|apply Says; exact I]|].
    intro key. destruct (K key) as [(c & s & I & E & S1 & F)|[N F]].
    + left. exists c, s. split; [right; exact I|]. auto.
    + destruct (key_eqb key (tl, bg_id g, b_id b)) eqn:E.
      * apply key_ok in E. left. exists b, st. split; [left; auto|]. split; auto. split; auto. rewrite F, E. apply (mfind_set_eq _ key_ok).
      * assert (Ne : key <> (tl, bg_id g, b_id b)) by (intro X; apply key_ok in X; congruence).
        right. split; [intros c [<-|I]; auto|]. rewrite F. apply (mfind_set_neq _ key_ok). congruence.
Qed.
Lemma set_bulbs_complete : forall tl (g : bulb_group) nl bs acc, (forall b, In b bs -> b_states b <> []) ->
  (forall b, In b bs -> absent (Map nl) (b_id b) \/ exists s, text_at null_text (Map nl) (b_id b) (state_name s)) ->
  exists acc', set_bulbs null_text tl g (Map nl) bs acc = Ok acc'.
Proof.
  intros tl g nl bs. induction bs as [|b bs IH]; intros acc Hs H; [cbn; eauto|]. cbn [set_bulbs].
  destruct (bulb_default_total b (Hs b (or_introl eq_refl))) as (d & ->). cbn [obind].
  assert (IH' : forall acc, exists acc', set_bulbs null_text tl g (Map nl) bs acc = Ok acc') by (intro a; apply IH; intros c I; [apply Hs|apply H]; right; exact I).
  destruct (H b (or_introl eq_refl)) as [A|(s & v & E & T)].
  - apply absent_get in A; [|discriminate|discriminate]. rewrite A. cbn [obind is_defined]. apply IH'.
  - pose proof E as (N & _). apply get_entry in E; auto. rewrite E. cbn [obind]. rewrite (proj2 (defined_iff v) N). rewrite <- as_string_ok in T. rewrite T. cbn [obind].
    rewrite (proj2 (state_ok _ s) eq_refl). cbn [conv obind]. apply IH'.
Qed.

(** ** Groups *)
Definition group_ok (t : traffic_light) (q : yaml * yaml) : Prop :=
  exists gid g bl, ident (fst q) gid /\ In g (tl_groups t) /\ bg_id g = gid /\ snd q = Map bl /\
    (forall r, In r bl -> exists b, In b (bg_bulbs g) /\ ident (fst r) (b_id b)) /\
    (forall b, In b (bg_bulbs g) -> absent (Map bl) (b_id b) \/ exists s, text_at null_text (Map bl) (b_id b) (state_name s)).
Lemma find_id {A} : forall (f : A -> string) l s x, find (fun y => s =? f y) l = Some x -> In x l /\ f x = s.
Proof. intros f l s x E. apply find_some in E. destruct E as [I E]. apply String.eqb_eq in E. auto. Qed.
Lemma find_id_nodup {A} : forall (f : A -> string) l x, NoDup (map f l) -> In x l -> find (fun y => f x =? f y) l = Some x.
Proof.
  intros f l x. induction l as [|y l IH]; intros N I; [destruct I|]. cbn. cbn [map] in N. apply NoDup_cons_iff in N. destruct N as [N M].
  destruct (String.eqb_spec (f x) (f y)) as [E|E].
  - destruct I as [->|I]; auto. exfalso. apply N. rewrite <- E. apply in_map. exact I.
  - destruct I as [->|I]; [congruence|]. auto.
Qed.
Lemma confirm_ok : forall (g : bulb_group) bl, NoDup (map b_id (bg_bulbs g)) -> 
  ((exists u, ConfirmBulbsExist null_text g (Map bl) = Ok u) <-> forall r, In r bl -> exists b, In b (bg_bulbs g) /\ ident (fst r) (b_id b)).
Proof.
  intros g bl Nd. unfold ConfirmBulbsExist. cbn [pairs]. split.
  - intros (u & H). rewrite omap_ok in H. destruct H as (m & H & _). rewrite each_ok_ok in H. intros r I. induction H as [|p b l m E F IH]; [destruct I|].
    destruct I as [->|I]; [|apply IH; exact I]. rewrite obind_ok in E. destruct E as (id & E1 & E2). rewrite conv_ok in E2. apply find_id in E2. destruct E2 as [J <-].
    exists b. rewrite as_id_ok in E1. auto.
  - intro H. exists tt. rewrite omap_ok. enough (X : exists m, each_ok (fun p : yaml * yaml => obind (as_id null_text (fst p)) (fun id => conv (GetBulb g id))) bl = Ok m) by (destruct X as (m & X); eauto).
    induction bl as [|r bl IH]; [cbn; eauto|]. cbn [each_ok]. destruct (H r (or_introl eq_refl)) as (b & I & E). rewrite <- as_id_ok in E. rewrite E. cbn [obind].
    assert (GB : GetBulb g (b_id b) = Some b) by exact (find_id_nodup b_id _ b Nd I). rewrite GB. cbn [conv obind]. destruct IH as (m & ->); [intros q J; apply H; right; exact J|]. cbn. eauto.
Qed.
Lemma confirm_no_ub : forall (g : bulb_group) n, ConfirmBulbsExist null_text g n <> UB.
Proof. intros g n. unfold ConfirmBulbsExist. apply omap_no_ub. apply each_ok_no_ub. intros x _. apply obind_no_ub; [apply as_id_no_ub|]. intros. apply conv_no_ub. Qed.
Lemma set_bulbs_no_ub : forall tl (g : bulb_group) n bs acc, (forall b, In b bs -> b_states b <> []) -> set_bulbs null_text tl g n bs acc <> UB.
Proof.
  intros tl g n bs. induction bs as [|b bs IH]; intros acc H; [discriminate|]. cbn [set_bulbs]. destruct (bulb_default_total b (H b (or_introl eq_refl))) as (d & ->). cbn [obind].
  apply obind_no_ub; [apply get_no_ub|intros sn _]. apply obind_no_ub.
  - destruct (is_defined sn); [|discriminate]. apply obind_no_ub; [apply as_string_no_ub|]. intros. apply conv_no_ub.
  - intros s _. apply IH. intros c I. apply H. right. exact I.
Qed.

Definition in_light (t : traffic_light) (g : string) (b : bulb) : Prop := exists gr, In gr (tl_groups t) /\ bg_id gr = g /\ In b (bg_bulbs gr).
Lemma good_groups : forall t : traffic_light, good_light t -> forall g, In g (tl_groups t) -> good_group g.
Proof. intros t (_ & F & _) g I. rewrite Forall_forall in F. auto. Qed.
Lemma good_bulbs_states : forall g : bulb_group, good_group g -> forall b, In b (bg_bulbs g) -> b_states b <> [].
Proof. intros g (_ & F & _) b I. rewrite Forall_forall in F. apply F. exact I. Qed.
Lemma nodup_same {A} : forall (f : A -> string) l x y, NoDup (map f l) -> In x l -> In y l -> f x = f y -> x = y.
Proof.
  intros f l x y N I J E. pose proof (find_id_nodup f l x N I) as F. pose proof (find_id_nodup f l y N J) as G. rewrite E in F. congruence.
Qed.

Lemma set_groups_ok : forall (t : traffic_light) l acc acc', good_light t -> set_groups null_text t l acc = Ok acc' ->
  (forall q, In q l -> group_ok t q) /\
  exists ms, Forall2 (fun p m => text (fst p) (snd (fst m)) /\ fst (fst m) = tl_id t /\ snd m = snd p) l ms /\
  forall key, (exists g n b s, last_mention ms (tl_id t) g n /\ in_light t g b /\ key = (tl_id t, g, b_id b) /\ bulb_says n b s /\ mfind key_eqb key acc' = Some s) \/
              ((forall g b n, in_light t g b -> key = (tl_id t, g, b_id b) -> ~ In (tl_id t, g, n) ms) /\ mfind key_eqb key acc' = mfind key_eqb key acc).
Proof.
  intros t l. induction l as [|[kn bn] l IH]; intros acc acc' Gt H.
  - cbn in H. injection H as <-. split; [intros q []|]. exists []. split; [constructor|]. intro key. right. split; auto.
  - cbn [set_groups] in H. rewrite obind_ok in H. destruct H as (id & E1 & H). rewrite obind_ok in H. destruct H as (g & E2 & H).
    rewrite throw_unless_ok in H. destruct H as [E3 H]. rewrite obind_ok in H. destruct H as (u & E4 & H). rewrite obind_ok in H. destruct H as (acc1 & E5 & H).
    rewrite conv_ok in E2. apply find_id in E2. destruct E2 as [Ig Eg]. rewrite as_id_ok in E1. rewrite is_map_iff in E3. destruct E3 as (bl & ->).
    pose proof (good_groups t Gt g Ig) as Gg. pose proof Gg as (_ & _ & _ & Nb).
    apply set_bulbs_ok in E5; [|exact Nb]. destruct E5 as [Says K1]. apply IH in H; [|exact Gt]. destruct H as (Ok1 & ms & F & K). split.
    + intros q [<-|I]; [|apply Ok1; exact I]. exists id, g, bl. cbn. split; auto. split; auto. split; auto. split; auto. split; [apply confirm_ok; eauto|].
      intros b I. destruct (Says b I) as (s & [T|[A _]]); eauto.
    + exists ((tl_id t, id, Map bl) :: ms). split; [constructor; auto; cbn; destruct E1; auto|].
      intro key. destruct (K key) as [(g' & n & b & s & (m1 & m2 & E & N) & L & Ek & S1 & Fk)|[N Fk]].
      { left. exists g', n, b, s. split; [exists ((tl_id t, id, Map bl) :: m1), m2; subst ms; auto|]. auto. }
      destruct (K1 key) as [(b & s & Ib & Ek & S1 & F1)|[N1 F1]].
      { left. exists (bg_id g), (Map bl), b, s. assert (L : in_light t (bg_id g) b) by (exists g; auto). split; [|rewrite Fk; auto].
        exists [], ms. split; [rewrite Eg; reflexivity|]. intros n'. apply (N (bg_id g) b); auto. }
      right. split; [|congruence]. intros g' b n L Ek [X|X]; [|exact (N g' b n L Ek X)].
      injection X as X1 X2. destruct L as (gr & I1 & I2 & I3). assert (gr = g).
      { apply (nodup_same bg_id (tl_groups t)); auto; [apply Gt|]. congruence. }
      subst gr. apply (N1 b I3). rewrite I2. exact Ek.
Qed.
Lemma set_groups_complete : forall (t : traffic_light) l acc, good_light t -> (forall q, In q l -> group_ok t q) -> exists acc', set_groups null_text t l acc = Ok acc'.
Proof.
  intros t l. induction l as [|[kn bn] l IH]; intros acc Gt H; [cbn; eauto|]. cbn [set_groups].
  destruct (H (kn, bn) (or_introl eq_refl)) as (id & g & bl & E1 & Ig & Eg & E2 & Hb & Hs). cbn in E1, E2. subst bn. rewrite <- as_id_ok in E1. rewrite E1. cbn [obind].
  unfold GetBulbGroup. rewrite <- Eg, (find_id_nodup bg_id _ g (proj2 (proj2 Gt)) Ig). cbn [conv obind is_map throw_unless].
  pose proof (good_groups t Gt g Ig) as Gg. pose proof Gg as (_ & _ & _ & Nb).
  destruct (proj2 (confirm_ok g bl Nb) Hb) as (u & ->). cbn [obind].
  destruct (set_bulbs_complete (tl_id t) g bl (bg_bulbs g) acc (good_bulbs_states g Gg) Hs) as (acc1 & ->). cbn [obind]. apply IH; auto. intros q I. apply H. right. exact I.
Qed.
Lemma set_groups_no_ub : forall (t : traffic_light) l acc, good_light t -> set_groups null_text t l acc <> UB.
Proof.
  intros t l. induction l as [|[kn bn] l IH]; intros acc Gt; [discriminate|]. cbn [set_groups].
  apply obind_no_ub; [apply as_id_no_ub|intros id _]. apply obind_no_ub; [apply conv_no_ub|intros g E]. apply throw_unless_no_ub. intros _.
  apply obind_no_ub; [apply confirm_no_ub|intros _ _]. apply obind_no_ub; [|intros a _; apply IH; exact Gt].
  apply set_bulbs_no_ub. rewrite conv_ok in E. apply find_id in E. apply good_bulbs_states. apply (good_groups t Gt). apply E.
Qed.

(** ** Lights *)
Definition light_ok (book : list traffic_light) (p : yaml * yaml) : Prop :=
  exists id t gl, ident (fst p) id /\ In t book /\ tl_id t = id /\ snd p = Map gl /\ forall q, In q gl -> group_ok t q.
Lemma set_lights_ok : forall (book : list traffic_light) l acc acc', good_book book -> set_lights null_text book l acc = Ok acc' ->
  (forall p, In p l -> light_ok book p) /\
  exists ms, mentions null_text l ms /\
  forall key, (exists tl g n b s, last_mention ms tl g n /\ has_bulb book tl g b /\ key = (tl, g, b_id b) /\ bulb_says n b s /\ mfind key_eqb key acc' = Some s) \/
              ((forall tl g b n, has_bulb book tl g b -> key = (tl, g, b_id b) -> ~ In (tl, g, n) ms) /\ mfind key_eqb key acc' = mfind key_eqb key acc).
Proof.
  intros book l. induction l as [|[kn gn] l IH]; intros acc acc' Gb H.
  - cbn in H. injection H as <-. split; [intros q []|]. exists []. split; [constructor|]. intro key. right. split; auto.
  - cbn [set_lights] in H. rewrite obind_ok in H. destruct H as (id & E1 & H). rewrite obind_ok in H. destruct H as (t & E2 & H).
    rewrite throw_unless_ok in H. destruct H as [E3 H]. rewrite obind_ok in H. destruct H as (acc1 & E5 & H).
    rewrite conv_ok in E2. apply find_id in E2. destruct E2 as [It Et]. rewrite as_id_ok in E1. rewrite is_map_iff in E3. destruct E3 as (gl & ->).
    assert (Gt : good_light t) by (destruct Gb as [F _]; rewrite Forall_forall in F; auto).
    cbn [pairs] in E5. apply set_groups_ok in E5; [|exact Gt]. destruct E5 as (OkG & ms0 & F0 & K1). apply IH in H; [|exact Gb]. destruct H as (Ok1 & ms & F & K). split.
    + intros q [<-|I]; [|apply Ok1; exact I]. exists id, t, gl. cbn. auto 6.
    + exists (ms0 ++ ms)%list. split; [econstructor; [exact (proj1 E1)| |exact F]; rewrite Et in F0; exact F0|].
      assert (Only : forall tl g n, In (tl, g, n) ms0 -> tl = tl_id t).
      { intros tl g n I. clear -F0 I. induction F0 as [|p m l0 ms0 (_ & E & _) F0 IH]; [destruct I|]. destruct I as [->|I]; auto. }
      intro key. destruct (K key) as [(tl & g' & n & b & s & (m1 & m2 & E & N) & L & Ek & S1 & Fk)|[N Fk]].
      { left. exists tl, g', n, b, s. split; [exists (ms0 ++ m1)%list, m2; subst ms; rewrite <- app_assoc; auto|]. auto. }
      destruct (K1 key) as [(g & n & b & s & (m1 & m2 & E & N2) & (gr & I1 & I2 & I3) & Ek & S1 & F1)|[N1 F1]].
      { left. exists (tl_id t), g, n, b, s. assert (L : has_bulb book (tl_id t) g b) by (exists t, gr; auto 6). split; [|rewrite Fk; auto].
        exists m1, (m2 ++ ms)%list. split; [subst ms0; rewrite <- app_assoc; reflexivity|]. intros n' I. apply in_app_iff in I. destruct I as [I|I]; [exact (N2 _ I)|exact (N _ _ b _ L Ek I)]. }
      right. split; [|congruence]. intros tl g b n L Ek I. apply in_app_iff in I. destruct I as [I|I]; [|exact (N tl g b n L Ek I)].
      pose proof (Only _ _ _ I) as ->. destruct L as (t' & gr & J1 & J2 & J3 & J4 & J5).
      assert (t' = t) by (apply (nodup_same tl_id book); auto; apply Gb). subst t'. apply (N1 g b n); auto. exists gr. auto.
Qed.
Lemma set_lights_complete : forall (book : list traffic_light) l acc, good_book book -> (forall p, In p l -> light_ok book p) -> exists acc', set_lights null_text book l acc = Ok acc'.
Proof.
  intros book l. induction l as [|[kn gn] l IH]; intros acc Gb H; [cbn; eauto|]. cbn [set_lights].
  destruct (H (kn, gn) (or_introl eq_refl)) as (id & t & gl & E1 & It & Et & E2 & Hg). cbn in E1, E2. subst gn. rewrite <- as_id_ok in E1. rewrite E1. cbn [obind].
  unfold GetTrafficLight. rewrite <- Et, (find_id_nodup tl_id _ t (proj2 Gb) It). cbn [conv obind is_map throw_unless pairs].
  assert (Gt : good_light t) by (destruct Gb as [F _]; rewrite Forall_forall in F; auto).
  destruct (set_groups_complete t gl acc Gt Hg) as (acc1 & ->). cbn [obind]. apply IH; auto. intros q I. apply H. right. exact I.
Qed.
Lemma set_lights_no_ub : forall (book : list traffic_light) l acc, good_book book -> set_lights null_text book l acc <> UB.
Proof.
  intros book l. induction l as [|[kn gn] l IH]; intros acc Gb; [discriminate|]. cbn [set_lights].
  apply obind_no_ub; [apply as_id_no_ub|intros id _]. apply obind_no_ub; [apply conv_no_ub|intros t E]. apply throw_unless_no_ub. intros _.
  apply obind_no_ub; [|intros a _; apply IH; exact Gb]. apply set_groups_no_ub. rewrite conv_ok in E. apply find_id in E. destruct Gb as [F _]. rewrite Forall_forall in F. apply F. apply E.
Qed.

Lemma says_fun : forall n (b : bulb) s s', bulb_says n b s -> bulb_says n b s' -> s = s'.
Proof.
  intros n b s s' [(v & E & T)|[A P]] [(v' & E' & T')|[A' P']].
  - pose proof (entry_functional _ _ _ _ E E') as <-. pose proof (text_fun null_text _ _ _ T T') as X. destruct s, s'; cbn in X; congruence.
  - destruct (A' v E).
  - destruct (A v' E').
  - apply bulb_default_ok in P, P'. congruence.
Qed.
Lemma has_bulb_fun : forall (book : list traffic_light) tl g b b', good_book book -> has_bulb book tl g b -> has_bulb book tl g b' -> b_id b = b_id b' -> b = b'.
Proof.
  intros book tl g b b' Gb (t & gr & I1 & I2 & I3 & I4 & I5) (t' & gr' & J1 & J2 & J3 & J4 & J5) E.
  assert (t = t') by (apply (nodup_same tl_id book); [apply Gb|auto|auto|congruence]). subst t'.
  assert (Gt : good_light t) by (destruct Gb as [F _]; rewrite Forall_forall in F; auto).
  assert (gr = gr') by (apply (nodup_same bg_id (tl_groups t)); [apply Gt|auto|auto|congruence]). subst gr'.
  pose proof (good_groups t Gt gr I3) as (_ & _ & _ & Nb). apply (nodup_same b_id (bg_bulbs gr)); auto.
Qed.
Lemma last_mention_fun : forall ms tl g n n', last_mention ms tl g n -> last_mention ms tl g n' -> n = n'.
Proof.
  intros ms tl g n n' (m1 & m2 & E & N) (k1 & k2 & F & M). subst ms. revert k1 F. induction m1 as [|x m1 IH]; intros k1 F; destruct k1 as [|y k1]; cbn in F; injection F as F1 F2.
  - exact F1.
  - exfalso. apply (N n'). rewrite F2. apply in_or_app. right. left. reflexivity.
  - exfalso. apply (M n). rewrite <- F2. apply in_or_app. right. left. reflexivity.
  - exact (IH k1 F2).
Qed.
Lemma LoadBulbStates_ok : forall (book : list traffic_light) n o, good_book book -> LoadBulbStates null_text book n = Ok o -> bulb_states_ok null_text book n /\ bulbs_of_phase null_text book n o.
Proof.
  intros book n o Gb H. unfold LoadBulbStates in H. rewrite obind_ok in H. destruct H as (sn & E & H). destruct (is_defined sn) eqn:Df.
  - rewrite throw_unless_ok, is_map_iff in H. destruct H as [(l & ->) H]. rewrite omap_ok in H. destruct H as (m & H & <-). cbn [pairs] in H. apply get_entry in E; [|discriminate].
    apply set_lights_ok in H; [|exact Gb]. destruct H as (Okl & ms & Mn & K). split; [right; exists l; auto|].
    cbn. exists l, ms. split; [exact E|]. split; [exact Mn|]. intros tl g id s. split.
    + intro F. destruct (K (tl, g, id)) as [(tl' & g' & node & b & s' & L & Hb & Ek & Sy & G)|[_ G]]; [|cbn in G; congruence].
      injection Ek as -> -> ->. rewrite F in G. injection G as ->. exists node, b. auto.
    + intros (node & b & L & Hb & <- & Sy). destruct (K (tl, g, b_id b)) as [(tl' & g' & node' & b' & s' & L' & Hb' & Ek & Sy' & G)|[N G]].
      * injection Ek as <- <- Ei. pose proof (last_mention_fun _ _ _ _ _ L L') as <-. pose proof (has_bulb_fun book tl g b b' Gb Hb Hb' Ei) as <-. rewrite (says_fun node b s s' Sy Sy'). exact G.
      * exfalso. destruct L as (m1 & m2 & -> & _). apply (N tl g b node Hb eq_refl). apply in_or_app. right. left. reflexivity.
  - injection H as <-. destruct sn; try discriminate. apply get_absent in E. split; [left|]; exact E.
Qed.
Lemma LoadBulbStates_complete : forall (book : list traffic_light) n, good_book book -> a_map n -> bulb_states_ok null_text book n -> exists o, LoadBulbStates null_text book n = Ok o.
Proof.
  intros book n Gb M [A|(l & E & H)]; unfold LoadBulbStates.
  - apply absent_undefined in A; auto. rewrite A. cbn. eauto.
  - apply get_entry in E; [|discriminate]. rewrite E. cbn [obind is_defined is_map throw_unless pairs]. destruct (set_lights_complete book l [] Gb) as (m & ->); [exact H|]. cbn. eauto.
Qed.
Lemma LoadBulbStates_no_ub : forall (book : list traffic_light) n, good_book book -> LoadBulbStates null_text book n <> UB.
Proof.
  intros book n Gb. unfold LoadBulbStates. apply obind_no_ub; [apply get_no_ub|intros sn _]. destruct (is_defined sn); [|discriminate].
  apply throw_unless_no_ub. intros _. apply omap_no_ub. apply set_lights_no_ub. exact Gb.
Qed.
End Bulbs.
