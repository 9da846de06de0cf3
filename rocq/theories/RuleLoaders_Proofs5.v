(** Lemmas for the loader of intersections; the old rulebook has its derived rules. *)
From Coq Require Import String List Bool Arith ZArith Lia.
From Verif Require Import Base Maps Loaders_Model Loaders_Spec Loaders_Proofs Loaders_Proofs2 Loaders_Proofs5 UniqueId_Model RuleLoaders_Model RuleLoaders_Spec RuleLoaders_Proofs RuleLoaders_Proofs2 RuleLoaders_Proofs3.
Import ListNotations.
Local Open Scope string_scope.

Section Paired.
Context {D : Type} (to_double : string -> option D) (null_text : option string) (Dleb : D -> D -> bool) (zero : D) (lane_length : string -> option D).
Lemma derived_nodup : forall rows dirs, NoDup (map rw_id rows) -> NoDup (map fst (bk_discrete (rows_book (D := D) rows dirs))).
Proof.
  intros rows dirs N. induction rows as [|r rows IH]; [constructor|]. cbn [map] in N. inversion N as [|? ? Ni Nr]; subst.
  assert (K : forall k, In k (map fst (bk_discrete (rows_book rows dirs))) -> exists id, In id (map rw_id rows) /\ (k = "Vehicle-Stop-In-Zone-Behavior Rule Type/" ++ id \/ k = "Right-Of-Way Rule Type/" ++ id)) by (intro k; apply (discrete_keys to_double lane_length)).
  specialize (IH Nr). unfold rows_book in *. cbn [bk_discrete flat_map app map fst] in *.
  change (dr_id (stop_of r)) with ("Vehicle-Stop-In-Zone-Behavior Rule Type/" ++ rw_id r). change (dr_id (row_of r)) with ("Right-Of-Way Rule Type/" ++ rw_id r).
  constructor; [|constructor; [|exact IH]].
  - intros [E|I]; [discriminate E|]. destruct (K _ I) as (id & J & [E|E]); [|discriminate E]. apply append_inj in E. subst id. contradiction.
  - intro I. destruct (K _ I) as (id & J & [E|E]); [discriminate E|]. apply append_inj in E. subst id. contradiction.
Qed.
Lemma old_rulebook_paired : forall n b, denotes_old_rulebook to_double null_text Dleb zero lane_length n b -> paired b.
Proof.
  intros n b (bn & rl & dl & rows & dirs & ds & _ & _ & _ & Fr & _ & Nr & _ & _ & Fd & Eb & _ & Ed & _).
  apply derived_iff in Fd. subst ds. rewrite flat_map_map in Ed. cbn [fst snd] in Ed.
  split; [rewrite Eb, map_map; exact Nr|]. split; [rewrite Ed; apply (derived_nodup rows []); exact Nr|].
  intros id r I. rewrite Eb in I. apply in_map_iff in I. destruct I as (r' & E & I). injection E as <- ->. split; [reflexivity|].
  assert (Hr : exists e, denotes_rowrule to_double null_text Dleb zero lane_length e r) by (clear -Fr I; induction Fr as [|e x el xl H F IH]; [destruct I|]; destruct I as [->|I]; eauto).
  destruct Hr as (e & _ & (m & _ & S) & Ne & _). split; [exact Ne|]. split; [apply (states_nodup _ _ _ S)|].
  exists (row_of r). split; [|apply derives_row_iff; reflexivity]. rewrite Ed. apply in_flat_map. exists r. split; [exact I|]. right. left. reflexivity.
Qed.
End Paired.

Section Intersections.
Context {D : Type} (null_text : option string).
Notation ident_at := (ident_at null_text).
Notation pring := (pring (D := D)).
Notation pprovider := (pprovider (D := D)).
Notation rulebook := (rulebook (D := D)).
Notation intersection := (intersection (D := D)).
Lemma ident_at_fun : forall n k s t, ident_at n k s -> ident_at n k t -> s = t.
Proof. intros n k s t (v & E & T & _) (w & F & U & _). pose proof (entry_functional _ _ _ _ E F) as <-. exact (text_fun null_text _ _ _ T U). Qed.
Lemma find_iff {V} : forall (m : list (string * V)) k v, NoDup (map fst m) -> mfind String.eqb k m = Some v <-> In (k, v) m.
Proof. intros m k v N. split; [apply (mfind_in _ seqb_ok)|apply (mfind_nodup _ seqb_ok _ _ _ N)]. Qed.
Lemma nodup_fun {V} : forall (m : list (string * V)) k v w, NoDup (map fst m) -> In (k, v) m -> In (k, w) m -> v = w.
Proof. intros m k v w N I J. apply (find_iff m k v N) in I. apply (find_iff m k w N) in J. congruence. Qed.

(** ** Regions *)
Lemma zones_ok : forall (b : rulebook) ids z, good_rulebook b -> GetRegion b ids = Ok z <-> zones b ids z.
Proof.
  intros b ids z [_ N]. unfold GetRegion, zones. rewrite omap_ok. split.
  - intros (zs & E & <-). apply each_ok_ok in E. induction E as [|id z l zs H F (ds & IH1 & IH2)]; [exists []; split; [constructor|reflexivity]|].
    rewrite omap_ok in H. destruct H as (d & H & <-). rewrite conv_ok, find_iff in H by exact N. exists (d :: ds). split; [constructor; assumption|]. cbn. rewrite IH2. reflexivity.
  - intros (ds & F & ->). exists (map dr_zone ds). split; [|rewrite flat_map_concat_map; reflexivity]. apply each_ok_ok. induction F as [|id d l ds H F IH]; cbn [map]; constructor; [|exact IH].
    rewrite omap_ok. exists d. split; [|reflexivity]. rewrite conv_ok, find_iff by exact N. exact H.
Qed.
Lemma row_zones_ok : forall (b : rulebook) ids z, good_rulebook b -> GetRegionOfOldRules b ids = Ok z <-> row_zones b ids z.
Proof.
  intros b ids z [N _]. unfold GetRegionOfOldRules, row_zones. rewrite omap_ok. split.
  - intros (zs & E & <-). apply each_ok_ok in E. induction E as [|id z l zs H F (ds & IH1 & IH2)]; [exists []; split; [constructor|reflexivity]|].
    rewrite omap_ok in H. destruct H as (d & H & <-). rewrite conv_ok, find_iff in H by exact N. exists (d :: ds). split; [constructor; assumption|]. cbn. rewrite IH2. reflexivity.
  - intros (ds & F & ->). exists (map rw_zone ds). split; [|rewrite flat_map_concat_map; reflexivity]. apply each_ok_ok. induction F as [|id d l ds H F IH]; cbn [map]; constructor; [|exact IH].
    rewrite omap_ok. exists d. split; [|reflexivity]. rewrite conv_ok, find_iff by exact N. exact H.
Qed.
Lemma ring_region_ok : forall (b : rulebook) (ring : pring) z, good_rulebook b -> ring_region b ring = Ok z <-> region_of b ring z.
Proof.
  intros b ring z Gb. unfold ring_region, region_of. destruct (pr_phases ring) as [|[ph [ds rs]] l]; [split; [discriminate|intros (? & ? & ? & ? & E & _); discriminate]|]. rewrite obind_ok. split.
  - intros (r & E & H). exists ph, ds, rs, l. split; [reflexivity|]. apply zones_ok in E; auto. destruct r as [|x r]; [right|injection H as <-; left; split; [exact E|discriminate]].
    split; [exact E|]. apply row_zones_ok; auto.
  - intros (ph' & ds' & rs' & l' & E & H). injection E as <- <- <- <-. destruct H as [[Z Ne]|[Z R]].
    + exists z. split; [apply zones_ok; auto|]. destruct z; [congruence|reflexivity].
    + exists []. split; [apply zones_ok; auto|]. apply row_zones_ok; auto.
Qed.
Lemma ring_region_no_ub : forall (b : rulebook) (ring : pring), pr_phases ring <> [] -> ring_region b ring <> UB.
Proof.
  intros b ring Ne. unfold ring_region. destruct (pr_phases ring) as [|[ph [ds rs]] l]; [congruence|].
  apply obind_no_ub; [unfold GetRegion; apply omap_no_ub; apply each_ok_no_ub; intros; apply omap_no_ub; apply conv_no_ub|]. intros [|x r] _; [|discriminate].
  unfold GetRegionOfOldRules; apply omap_no_ub; apply each_ok_no_ub; intros; apply omap_no_ub; apply conv_no_ub.
Qed.

(** ** Keys and phases *)
Definition names (rings : list (string * pring)) (n : yaml) (id rid pid : string) (ring : pring) : Prop :=
  ident_at n "ID" id /\ ident_at n "PhaseRing" rid /\ ident_at n "InitialPhase" pid /\ In (rid, ring) rings /\ In pid (map fst (pr_phases ring)).
Lemma keys_ok : forall (rings : list (string * pring)) n id rid pid ring, good_rings rings -> intersection_keys null_text rings n = Ok (id, rid, pid, ring) <-> names rings n id rid pid ring.
Proof.
  intros rings n id rid pid ring [N _]. unfold intersection_keys, names. split.
  - intro H. steps H. injection H as -> -> -> ->. rewrite conv_ok, find_iff in E5 by exact N. apply (mhas_in _ seqb_ok) in C1. split; [apply ident_need; eauto|]. split; [apply ident_need; eauto|]. split; [apply ident_need; eauto|]. auto.
  - intros (H1 & H2 & H3 & I & J). pose proof H1 as (v & Ev & _). pose proof (entry_map _ _ _ Ev) as M. apply is_map_iff in M. apply ident_need in H1, H2, H3.
    destruct H1 as (a & A1 & A2), H2 as (c & C1 & C2), H3 as (d & D1 & D2). apply (find_iff _ _ _ N) in I.
    assert (L : Nat.ltb 0 (length (pr_phases ring)) = true) by (apply Nat.ltb_lt; destruct (pr_phases ring); [destruct J|cbn; lia]). apply (mhas_in _ seqb_ok) in J. run. rewrite I. cbn [conv obind]. run. reflexivity.
Qed.
Lemma keys_no_ub : forall (rings : list (string * pring)) n, intersection_keys null_text rings n <> UB.
Proof.
  intros rings n. unfold intersection_keys. apply throw_unless_no_ub. intros _. do 3 (apply obind_no_ub; [apply need_no_ub|intros ? _]). do 3 (apply obind_no_ub; [apply as_id_no_ub|intros ? _]).
  apply obind_no_ub; [apply conv_no_ub|intros ? _]. apply throw_unless_no_ub. intros _. apply throw_unless_no_ub. intros _. discriminate.
Qed.
(** The provider after an intersection with keys. *)
Lemma provide_ok : forall (rings : list (string * pring)) n id rid pid ring (m : pprovider), good_rings rings -> names rings n id rid pid ring -> NoDup (map fst m) ->
  exists m' o, provide_phase ring rid pid m = Ok m' /\ first_next ring pid o /\ NoDup (map fst m') /\
    forall k x, In (k, x) m' <-> (k = rid /\ x = (pid, o)) \/ (k <> rid /\ In (k, x) m).
Proof.
  intros rings n id rid pid ring m [_ G] (_ & _ & _ & I & J) N. destruct (G _ _ I) as (N1 & N2 & K). rewrite <- K in J. apply in_map_iff in J. destruct J as ([p ns] & E & J). cbn in E. subst p.
  unfold provide_phase. pose proof J as J'. apply (find_iff _ _ _ N2) in J'. rewrite J'. cbn [conv obind].
  assert (E : exists next dur, (match ns with [] => (None, None) | (i, d) :: _ => (Some i, d) end) = (next, dur) /\ duration_ok next dur = true /\ compute_next next dur = hd_error ns) by (destruct ns as [|[i d] ns]; [exists None, None|exists (Some i), d; destruct d]; cbn; auto).
  destruct E as (next & dur & -> & Ed & Ec). destruct (mhas String.eqb rid m) eqn:Eh.
  - unfold SetPhase. rewrite Ed. match goal with |- context [throw_unless (mhas ?e ?k ?x)] => replace (mhas e k x) with true by (symmetry; exact Eh) end. cbn [throw_unless]. rewrite Ec. exists (mset String.eqb rid (pid, hd_error ns) m), (hd_error ns). split; [reflexivity|]. split; [exists ns; auto|].
    assert (Nm : NoDup (map fst (mset String.eqb rid (pid, hd_error ns) m))) by (rewrite (mset_keys _ seqb_ok); match goal with |- context [if ?c then _ else _] => replace c with true by (symmetry; exact Eh) end; exact N). split; [exact Nm|].
    intros k x. rewrite <- (find_iff _ k x Nm). destruct (string_dec k rid) as [->|Ne].
    + rewrite (mfind_set_eq _ seqb_ok). split; [intros [= <-]; auto|]. intros [[_ ->]|[F _]]; [reflexivity|congruence].
    + rewrite (mfind_set_neq _ seqb_ok) by congruence. rewrite find_iff by exact N. tauto.
  - unfold AddPhaseRing. rewrite Ed. cbn [throw_unless]. rewrite Ec. assert (Ni : ~ In rid (map fst m)) by (intro I'; apply (mhas_in _ seqb_ok) in I'; congruence).
    exists (m ++ [(rid, (pid, hd_error ns))])%list, (hd_error ns). split; [apply memplace_ok; auto|]. split; [exists ns; auto|]. split; [rewrite map_app; apply NoDup_app_last; auto|].
    intros k x. rewrite in_app_iff. cbn [In]. split.
    + intros [I'|[[= <- <-]|[]]]; [|auto]. right. split; [|exact I']. intros ->. apply Ni. change rid with (fst (rid, x)). apply in_map. exact I'.
    + intros [[-> ->]|[_ I']]; auto.
Qed.
Lemma provided_nil : forall (rings : list (string * pring)) m, NoDup (map fst m) -> provided null_text rings [] m m.
Proof.
  intros rings m N. split; [exact N|]. intros rid x. split; [intro I; right; split; [exact I|intros e []]|]. intros [(ring & _ & (l1 & n & l2 & E & _) & _)|[I _]]; [destruct l1; discriminate|exact I].
Qed.
Lemma provided_snoc : forall (rings : list (string * pring)) l n id rid pid ring m0 m1 m2 o, good_rings rings -> names rings n id rid pid ring -> provided null_text rings l m0 m1 ->
  first_next ring pid o -> NoDup (map fst m2) -> (forall k x, In (k, x) m2 <-> (k = rid /\ x = (pid, o)) \/ (k <> rid /\ In (k, x) m1)) -> provided null_text rings (l ++ [n])%list m0 m2.
Proof.
  intros rings l n id rid pid ring m0 m1 m2 o [Nr Gr] (_ & H2 & H3 & I & _) [_ P] Fn N K. split; [exact N|]. intros k x. rewrite K, P. split.
  - intros [[-> ->]|[Ne [(ring' & A & (l1 & e & l2 & -> & B & C & E) & F)|[A B]]]].
    + left. exists ring. cbn [fst snd]. split; [exact I|]. split; [|exact Fn]. exists l, n, []. split; [reflexivity|]. split; [exact H2|]. split; [exact H3|intros e []].
    + left. exists ring'. split; [exact A|]. split; [|exact F]. exists l1, e, (l2 ++ [n])%list. rewrite <- app_assoc. split; [reflexivity|]. split; [exact B|]. split; [exact C|].
      intros e' J. apply in_app_or in J. destruct J as [J|[<-|[]]]; [exact (E e' J)|]. intro H. apply Ne. exact (ident_at_fun _ _ _ _ H H2).
    + right. split; [exact A|]. intros e J. apply in_app_or in J. destruct J as [J|[<-|[]]]; [exact (B e J)|]. intro H. apply Ne. exact (ident_at_fun _ _ _ _ H H2).
  - intros [(ring' & A & (l1 & e & l2 & E & B & C & F) & G)|[A B]].
    + destruct (exists_last (l := e :: l2)) as (l2' & e' & E2); [discriminate|]. rewrite E2, app_assoc in E. apply app_inj_tail in E. destruct E as [El <-].
      destruct (string_dec k rid) as [->|Ne].
      * left. split; [reflexivity|]. destruct l2' as [|a l2'].
        -- injection E2 as -> ->. pose proof (ident_at_fun _ _ _ _ C H3) as Ep. pose proof (nodup_fun _ _ _ _ Nr I A) as <-. destruct x as [p o']. cbn in *. subst p. f_equal.
           destruct G as (ns & G1 & ->), Fn as (ns' & F1 & ->). destruct (Gr _ _ I) as (_ & N2 & _). rewrite (nodup_fun _ _ _ _ N2 G1 F1). reflexivity.
        -- injection E2 as -> ->. exfalso. apply (F n); [apply in_or_app; right; left; reflexivity|exact H2].
      * right. split; [exact Ne|]. left. exists ring'. split; [exact A|]. split; [|exact G]. destruct l2' as [|a l2']; injection E2 as -> ->.
        -- exfalso. apply Ne. exact (ident_at_fun _ _ _ _ B H2).
        -- exists l1, a, l2'. split; [exact El|]. split; [exact B|]. split; [exact C|]. intros e'' J. apply F. apply in_or_app. auto.
    + right. split.
      * intros ->. apply (B n); [apply in_or_app; right; left; reflexivity|exact H2].
      * right. split; [exact A|]. intros e J. apply B. apply in_or_app. auto.
Qed.

(** ** Intersections *)
Lemma denotes_names : forall (b : rulebook) (rings : list (string * pring)) n i, denotes_intersection null_text b rings n i <-> exists pid ring, names rings n (in_id i) (in_ring i) pid ring /\ region_of b ring (in_region i).
Proof.
  intros b rings n i. unfold denotes_intersection, names. split.
  - intros (A & B & ring & ph & C & E & F & G). exists ph, ring. auto 10.
  - intros (ph & ring & (A & B & C & E & F) & G). split; [exact A|]. split; [exact B|]. exists ring, ph. auto.
Qed.
(** One element: the outcome and what happens to the provider. *)
Lemma BuildIntersection_cases : forall (b : rulebook) (rings : list (string * pring)) n m, good_rulebook b -> good_rings rings -> NoDup (map fst m) ->
  (exists id rid pid ring m' o, names rings n id rid pid ring /\ first_next ring pid o /\ NoDup (map fst m') /\ (forall k x, In (k, x) m' <-> (k = rid /\ x = (pid, o)) \/ (k <> rid /\ In (k, x) m)) /\
    ((exists i, BuildIntersection null_text b rings n m = (Ok i, m') /\ denotes_intersection null_text b rings n i /\ in_id i = id) \/
     (BuildIntersection null_text b rings n m = (Throw, m') /\ forall z, ~ region_of b ring z))) \/
  (BuildIntersection null_text b rings n m = (Throw, m) /\ forall id rid pid ring, ~ names rings n id rid pid ring).
Proof.
  intros b rings n m Gb Gr N. unfold BuildIntersection. destruct (intersection_keys null_text rings n) as [[[[id rid] pid] ring]| |] eqn:E; [| |destruct (keys_no_ub _ _ E)].
  - left. apply keys_ok in E; auto. destruct (provide_ok _ _ _ _ _ _ m Gr E N) as (m' & o & -> & Fn & N' & K). exists id, rid, pid, ring, m', o. split; [exact E|]. split; [exact Fn|]. split; [exact N'|]. split; [exact K|].
    destruct (ring_region b ring) as [z| |] eqn:R; cbn [omap obind].
    + left. eexists. split; [reflexivity|]. split; [|reflexivity]. apply ring_region_ok in R; auto. apply denotes_names. exists pid, ring. auto.
    + right. split; [reflexivity|]. intros z Z. apply ring_region_ok in Z; auto. congruence.
    + exfalso. revert R. apply ring_region_no_ub. destruct E as (_ & _ & _ & _ & J). intro X. rewrite X in J. destruct J.
  - right. split; [reflexivity|]. intros id rid pid ring H. apply keys_ok in H; auto. congruence.
Qed.
Lemma names_fun : forall (rings : list (string * pring)) n id rid pid ring id' rid' pid' ring', good_rings rings -> names rings n id rid pid ring -> names rings n id' rid' pid' ring' -> id = id' /\ rid = rid' /\ pid = pid' /\ ring = ring'.
Proof. intros rings n id rid pid ring id' rid' pid' ring' G H H'. apply keys_ok in H; auto. apply keys_ok in H'; auto. rewrite H in H'. injection H' as -> -> -> ->. auto. Qed.
Lemma add_ok : forall moves (i : intersection) l, AddIntersection moves i l =
  if in_dec string_dec (in_id i) (map in_id l) then (if moves then UB else Throw) else Ok (l ++ [i])%list.
Proof.
  intros moves i l. unfold AddIntersection. destruct (existsb (fun j => in_id j =? in_id i) l) eqn:E.
  - apply existsb_exists in E. destruct E as (j & J & E). apply String.eqb_eq in E. destruct (in_dec string_dec (in_id i) (map in_id l)) as [_|N]; [reflexivity|]. destruct N. rewrite <- E. apply in_map. exact J.
  - destruct (in_dec string_dec (in_id i) (map in_id l)) as [I|_]; [|reflexivity]. exfalso. apply in_map_iff in I. destruct I as (j & Ej & J). rewrite <- not_true_iff_false in E. apply E. apply existsb_exists. exists j. split; [exact J|]. apply String.eqb_eq. exact Ej.
Qed.
Definition described (b : rulebook) (rings : list (string * pring)) := denotes_intersection null_text b rings.
Lemma described_fun : forall (b : rulebook) (rings : list (string * pring)) n i j, good_rulebook b -> good_rings rings -> described b rings n i -> described b rings n j -> i = j.
Proof.
  intros b rings n i j Gb Gr H H'. apply denotes_names in H. apply denotes_names in H'. destruct H as (p & r & A & Z), H' as (p' & r' & A' & Z').
  destruct (names_fun _ _ _ _ _ _ _ _ _ _ Gr A A') as (E1 & E2 & _ & <-). apply ring_region_ok in Z; auto. apply ring_region_ok in Z'; auto. destruct i, j. cbn in *. congruence.
Qed.
(** The whole list, after the part [done] has been read into [acc] and [m1]. *)
Lemma load_cases : forall moves (b : rulebook) (rings : list (string * pring)) m0, good_rulebook b -> good_rings rings -> forall l done acc m1,
  Forall2 (described b rings) done acc -> NoDup (map in_id acc) -> provided null_text rings done m0 m1 ->
  exists res m', load_intersections null_text moves b rings l acc m1 = (res, m') /\
    ((exists is, res = Ok (acc ++ is)%list /\ Forall2 (described b rings) l is /\ NoDup (map in_id (acc ++ is)) /\ provided null_text rings (done ++ l) m0 m') \/
     (exists l1 n l2 is, l = (l1 ++ n :: l2)%list /\ Forall2 (described b rings) l1 is /\ NoDup (map in_id (acc ++ is)) /\
        ((res = Throw /\ provided null_text rings (done ++ l1) m0 m' /\ (forall id rid pid ring, ~ names rings n id rid pid ring)) \/
         (res = Throw /\ provided null_text rings (done ++ l1 ++ [n]) m0 m' /\ (forall i, ~ described b rings n i)) \/
         (exists i, res = (if moves then UB else Throw) /\ provided null_text rings (done ++ l1 ++ [n]) m0 m' /\ described b rings n i /\ In (in_id i) (map in_id (acc ++ is)))))).
Proof.
  intros moves b rings m0 Gb Gr l. induction l as [|n l IH]; intros done acc m1 F N P; cbn [load_intersections].
  - exists (Ok acc), m1. split; [reflexivity|]. left. exists []. rewrite !app_nil_r. split; [reflexivity|]. split; [constructor|]. auto.
  - destruct (BuildIntersection_cases b rings n m1 Gb Gr (proj1 P)) as [(id & rid & pid & ring & m' & o & Hn & Fn & N' & K & [(i & -> & Hi & Ei)|[-> Nz]])|[-> Nk]].
    + pose proof (provided_snoc _ _ _ _ _ _ _ _ _ _ _ Gr Hn P Fn N' K) as P'. rewrite add_ok. destruct (in_dec string_dec (in_id i) (map in_id acc)) as [J|J].
      * destruct moves; eexists; exists m'; (split; [reflexivity|]); right; exists [], n, l, []; rewrite app_nil_r; cbn [app]; (split; [reflexivity|]); (split; [constructor|]); (split; [exact N|]); right; right; exists i; auto.
      * destruct (IH (done ++ [n])%list (acc ++ [i])%list m') as (res & m'' & -> & H); [apply Forall2_app; [exact F|constructor; [exact Hi|constructor]]|rewrite map_app; apply NoDup_app_last; auto|exact P'|].
        exists res, m''. split; [reflexivity|]. destruct H as [(is & -> & A & B & C)|(l1 & n' & l2 & is & -> & A & B & C)].
        -- left. exists (i :: is). rewrite <- app_assoc in B, C. rewrite <- app_assoc. cbn [app] in *. split; [reflexivity|]. split; [constructor; assumption|]. auto.
        -- right. exists (n :: l1), n', l2, (i :: is). rewrite <- app_assoc in B. cbn [app] in *. split; [reflexivity|]. split; [constructor; assumption|]. split; [exact B|].
           rewrite <- !app_assoc in C. cbn [app] in C. exact C.
    + exists Throw, m'. split; [reflexivity|]. right. exists [], n, l, []. rewrite app_nil_r. cbn [app]. split; [reflexivity|]. split; [constructor|]. split; [exact N|]. right. left. split; [reflexivity|].
      split; [exact (provided_snoc _ _ _ _ _ _ _ _ _ _ _ Gr Hn P Fn N' K)|]. intros i Hi. apply denotes_names in Hi. destruct Hi as (p' & ring' & Hn' & Z). destruct (names_fun _ _ _ _ _ _ _ _ _ _ Gr Hn Hn') as (_ & _ & _ & <-). exact (Nz _ Z).
    + exists Throw, m1. split; [reflexivity|]. right. exists [], n, l, []. rewrite !app_nil_r. cbn [app]. split; [reflexivity|]. split; [constructor|]. split; [exact N|]. left. auto.
Qed.
End Intersections.
