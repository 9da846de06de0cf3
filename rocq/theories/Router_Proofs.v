(** Lemmas for C43. *)
From Coq Require Import List Arith Bool QArith Qabs Lia Lqa.
From Verif Require Import Base Maps Regions_Model Scalar_Model Graph_Model Graph_Spec Graph_Proofs RuleStates_Proofs Route_Model Route_Spec Route_Proofs Router_Model Router_Spec.
Import ListNotations.
Local Open Scope nat_scope.

Lemma cmin_cases' a b : ((cmin a b = a /\ a <= b) \/ (cmin a b = b /\ b <= a))%Q.
Proof. unfold cmin. qcases; [right|left]; split; auto; lra. Qed.
Lemma fold_min l : forall c, let k := fold_left (fun c x => cmin c (size (s_range x))) l c in
  (k <= c)%Q /\ (forall x, In x l -> (k <= span x)%Q) /\ (k = c \/ exists x, In x l /\ k = span x).
Proof.
  induction l as [|x l IH]; intro c; cbn [fold_left].
  - split; [lra|]. split; [intros x []|]. auto.
  - destruct (IH (cmin c (size (s_range x)))) as (A & B & C). set (k := fold_left _ l (cmin c (size (s_range x)))) in *.
    change (size (s_range x)) with (span x) in *. destruct (cmin_cases' c (span x)) as [[E L]|[E L]]; rewrite E in A, C.
    + split; [lra|]. split; [intros y [<-|I]; [lra|auto]|]. destruct C as [->|(y & I & ->)]; [auto|right; exists y; split; [right|]; auto].
    + split; [lra|]. split; [intros y [<-|I]; [lra|auto]|]. right. destruct C as [->|(y & I & ->)]; [exists x|exists y]; split; auto; [left|right]; auto.
Qed.
Lemma phase_cost_shortest p : ph_ranges p <> [] -> (forall x, In x (ph_ranges p) -> (span x <= dbl_max)%Q) -> shortest p (phase_cost p).
Proof.
  intros N M. unfold phase_cost. destruct (fold_min (ph_ranges p) dbl_max) as (A & B & C). set (k := fold_left _ _ _) in *. clearbody k.
  split; auto. destruct C as [->|(x & I & ->)]; [|exists x; split; auto; lra].
  destruct (ph_ranges p) as [|x l]; [congruence|]. exists x. split; [left; auto|]. specialize (B x (or_introl eq_refl)). specialize (M x (or_introl eq_refl)). lra.
Qed.
Lemma shortest_unique p a b : shortest p a -> shortest p b -> (a == b)%Q.
Proof. intros [(x & I & E) L] [(y & J & F) K]. specialize (L y J). specialize (K x I). lra. Qed.

Lemma fold_cost r : forall c, (fold_left (fun c p => c + phase_cost p) r c == c + total (map phase_cost r))%Q.
Proof. induction r as [|p r IH]; intro c; cbn [fold_left map total fold_right]; [lra|]. rewrite IH. unfold total. lra. Qed.
Lemma shortest_total r ks ls : Forall2 shortest r ks -> Forall2 shortest r ls -> (total ks == total ls)%Q.
Proof.
  intro F. revert ls. induction F as [|p k r ks S F IH]; intros ls G; inversion G; subst; [reflexivity|].
  unfold total in *. cbn. rewrite (IH _ H3). rewrite (shortest_unique p k y S H1). reflexivity.
Qed.
Lemma measurable_tail p r : measurable (p :: r) -> measurable r.
Proof. intros M q I. apply M. right. auto. Qed.
Lemma costs_shortest r : measurable r -> Forall2 shortest r (map phase_cost r).
Proof.
  induction r as [|p r IH]; intro M; constructor.
  - destruct (M p (or_introl eq_refl)). apply phase_cost_shortest; auto.
  - apply IH. eapply measurable_tail; eauto.
Qed.
Lemma fold_max r : forall c m, ((fold_left (fun c p => cmax (phase_cost p) c) r c <= m) <-> (c <= m) /\ (forall p, In p r -> phase_cost p <= m))%Q.
Proof.
  induction r as [|p r IH]; intros c m; cbn [fold_left].
  - split; [intro L; split; auto; intros ? []|intros [L _]; auto].
  - rewrite IH. split.
    + intros [L K]. destruct (cmax_cases (phase_cost p) c) as [[E G]|[E G]]; rewrite E in L; (split; [lra|]); intros q [<-|I]; auto; lra.
    + intros [L K]. split; [|intros q I; apply K; right; auto]. specialize (K p (or_introl eq_refl)).
      destruct (cmax_cases (phase_cost p) c) as [[E G]|[E G]]; rewrite E; auto.
Qed.

Lemma position_index_spec lane l :
  match position_index lane l with
  | Some i => exists p, nth_error l i = Some p /\ at_lane p = lane
  | None => forall p, In p l -> at_lane p <> lane
  end.
Proof.
  induction l as [|p l IH]; cbn; [intros ? []|]. destruct (Nat.eqb_spec (at_lane p) lane) as [E|E]; [exists p; auto|].
  destruct (position_index lane l) as [i|]; cbn; auto. intros q [<-|I]; auto.
Qed.
Lemma nodup_lane l i j p q : NoDup (map at_lane l) -> nth_error l i = Some p -> nth_error l j = Some q -> at_lane p = at_lane q -> i = j.
Proof.
  intros N A B E. rewrite NoDup_nth_error in N. apply N.
  - rewrite map_length. apply nth_error_Some. congruence.
  - rewrite !nth_error_map, A, B. cbn. congruence.
Qed.

Lemma nth_in {A} (l : list A) i x : nth_error l i = Some x -> In x l.
Proof. apply nth_error_In. Qed.

(** ** The loop against the specification *)
Lemma switch_loop_spec nt r : r <> [] -> (forall p, In p r -> one_per_lane p) ->
  (forall k p q, nth_error r k = Some p -> nth_error r (S k) = Some q -> listed_alike nt p q) ->
  forall s lane, at_lane s = lane -> (switch_loop lane r = Ok false /\ stays nt s r) \/ (switch_loop lane r = Ok true /\ ~ stays nt s r).
Proof.
  induction r as [|p r IH]; [congruence|]. intros _ U A s lane El. cbn [switch_loop].
  pose proof (position_index_spec lane (ph_ends p)) as P. destruct (position_index lane (ph_ends p)) as [i|].
  - destruct P as (e & Ne & Ee). destruct r as [|q r].
    + left. split; auto. apply (stays_last nt s p e); [eapply nth_in; eauto|congruence].
    + destruct (A 0 p q eq_refl eq_refl) as [L J].
      assert (Hi : i < length (ph_starts q)) by (rewrite <- L; apply nth_error_Some; congruence).
      destruct (nth_error (ph_starts q) i) as [s'|] eqn:Es; [|apply nth_error_None in Es; lia].
      assert (Js : joined nt e s') by (apply (J i i); auto).
      destruct (IH ltac:(discriminate) (fun x I => U x (or_intror I)) (fun k => A (S k)) s' (at_lane s') eq_refl) as [[E T]|[E T]].
      * left. split; auto. apply (stays_more nt s p e q r s'); auto; try (eapply nth_in; eauto); congruence.
      * right. split; auto. intro T'. inversion T' as [|s0 p0 e0 q0 r0 s0' I0 El0 Is0 J0 T0]. subst. apply T.
        destruct (In_nth_error _ _ I0) as [i0 Ni0]. destruct (In_nth_error _ _ Is0) as [j0 Nj0].
        assert (i0 = j0) by (apply (J i0 j0 e0 s0'); auto). subst j0.
        assert (i0 = i) by (eapply (nodup_lane (ph_ends p)); eauto; [apply U; left; auto|congruence]). subst i0. congruence.
  - right. split; auto. intro T. inversion T as [s0 p0 e0 I0 El0|s0 p0 e0 q0 r0 s0' I0 El0 Is0 J0 T0]; subst; apply (P e0); auto.
Qed.

(** ** Filtering *)
Lemma at_most_true o f : at_most o f = true <-> forall x, o = Some x -> f x = true.
Proof. destruct o; cbn; split; intros H; try intros x E; try congruence; auto. Qed.
Lemma negb_ltb a b : negb (Qltb a b) = true <-> (b <= a)%Q.
Proof. destruct (Qltb_spec a b); cbn; split; intro; try congruence; try lra; auto. Qed.
Lemma limits_spec c r : measurable r -> (forall q, max_phase c = Some q -> (0 <= q)%Q) ->
  (at_most (max_phase c) (fun m => negb (Qltb m (max_phase_cost r))) = true /\
   at_most (max_route c) (fun m => negb (Qltb m (route_cost r))) = true) <-> within_limits c r.
Proof.
  intros M P. rewrite !at_most_true. unfold within_limits. split; intros [A B]; split.
  - intros q E p k I S. specialize (A q E). rewrite negb_ltb in A. unfold max_phase_cost in A. rewrite fold_max in A. destruct A as [_ A].
    specialize (A p I). destruct (M p I) as [N D]. rewrite (shortest_unique p k (phase_cost p) S); auto. apply phase_cost_shortest; auto.
  - intros q ks E F. specialize (B q E). rewrite negb_ltb in B. unfold route_cost in B. rewrite fold_cost in B.
    rewrite (shortest_total r ks (map phase_cost r) F (costs_shortest r M)). lra.
  - intros q E. apply negb_ltb. unfold max_phase_cost. rewrite fold_max. split; auto. intros p I. apply (A q E p); auto.
    destruct (M p I) as [N D]. apply phase_cost_shortest; auto.
  - intros q E. apply negb_ltb. unfold route_cost. rewrite fold_cost. specialize (B q _ E (costs_shortest r M)). lra.
Qed.

Lemma sublist_incl {A} (a b : list A) x : sublist a b -> In x a -> In x b.
Proof. induction 1; intros I; auto; [destruct I; [left|right]; auto|right; auto]. Qed.
Lemma filter_sublist_of c rs l : FilterRoutes c rs = Ok l -> sublist l rs /\ (forall r, In r l -> keep_route c r = Ok true) /\ (forall r, In r rs -> In r l \/ keep_route c r = Ok false).
Proof.
  revert l. induction rs as [|r rs IH]; cbn [FilterRoutes]; intros l E.
  - inversion E; subst. split; [constructor|]. split; intros ? [].
  - destruct (keep_route c r) as [k| |] eqn:K; cbn [obind] in E; try discriminate.
    destruct (FilterRoutes c rs) as [l'| |]; cbn [omap] in E; try discriminate. inversion E; subst l; clear E. destruct (IH l' eq_refl) as (S & A & B).
    destruct k; (split; [constructor; exact S|split]).
    + intros x [<-|I]; auto.
    + intros x [<-|I]; [left; left; auto|]. destruct (B x I); [left; right|right]; auto.
    + auto.
    + intros x [<-|I]; auto.
Qed.

Section Routes.
Variable m : roads.
Lemma validate_routes_ok rs u : validate_routes m rs = Ok u -> forall r, In r rs -> Connected (net m) r = Ok true.
Proof.
  induction rs as [|r rs IH]; intros E x; [intros []|]. cbn in E. destruct (Connected (net m) r) as [b| |] eqn:C; cbn in E; try discriminate.
  destruct b; cbn in E; [|discriminate]. intros [<-|I]; auto.
Qed.
Lemma validate_routes_complete rs : (forall r, In r rs -> Connected (net m) r = Ok true) -> validate_routes m rs = Ok tt.
Proof. induction rs as [|r rs IH]; intro H; auto. cbn. rewrite (H r (or_introl eq_refl)). cbn. apply IH. intros x I. apply H. right. auto. Qed.

(** ** Phases of a sequence *)
Lemma phase_fields nt tol a b c p : Phase nt tol a b c = Ok p -> ph_tol p = tol /\ ph_starts p = a /\ ph_ends p = b /\ ph_ranges p = c.
Proof.
  unfold Phase, throw_unless. intro E.
  repeat match type of E with (if ?x then _ else _) = _ => destruct x; try discriminate | obind ?x _ = _ => destruct x as [y| |]; cbn [obind] in E; try discriminate end.
  inversion E; subst. auto.
Qed.
Lemma phase_ranges_lanes tol s e ls l : phase_ranges m tol s e ls = Ok l -> map lane_id l = ls.
Proof.
  revert l. induction ls as [|x ls IH]; intros l E; cbn in E; [inversion E; auto|].
  destruct (FindEquivalentSCoordinate m s x tol) as [a| |]; cbn in E; try discriminate.
  destruct (FindEquivalentSCoordinate m e x tol) as [b| |]; cbn in E; try discriminate.
  destruct (SRange a b) as [r| |]; cbn in E; try discriminate.
  destruct (phase_ranges m tol s e ls) as [l'| |]; cbn in E; try discriminate. inversion E; subst. cbn. f_equal. auto.
Qed.
Lemma make_phase_ok tol e a b p : MakePhase m tol e a b = Ok p ->
  ph_starts p = a /\ ph_ends p = b /\ map lane_id (ph_ranges p) = lanes_of m (sg_id (e_seg e)) /\ a <> [] /\ b <> [] /\
  (forall x, In x a \/ In x b -> seg_of m (at_lane x) = sg_id (e_seg e)) /\ Phase (net m) tol a b (ph_ranges p) = Ok p.
Proof.
  unfold MakePhase, throw_unless. intro E. destruct (nonempty a) eqn:Na; [|discriminate]. destruct (nonempty b) eqn:Nb; [|discriminate].
  destruct (forallb _ a) eqn:Fa; [|discriminate]. destruct (forallb _ b) eqn:Fb; [|discriminate].
  destruct a as [|s a]; [discriminate|]. destruct b as [|z b]; [discriminate|].
  destruct (phase_ranges m tol s z (lanes_of m (sg_id (e_seg e)))) as [rs| |] eqn:R; cbn [obind] in E; try discriminate.
  destruct (phase_fields _ _ _ _ _ _ E) as (A & B & C & D). rewrite D. split; auto. split; auto. split; [eapply phase_ranges_lanes; eauto|].
  split; [discriminate|]. split; [discriminate|]. split; auto.
  rewrite forallb_forall in Fa, Fb. intros x [I|I]; [apply Fa in I|apply Fb in I]; apply Nat.eqb_eq; auto.
Qed.

Lemma joint_ok g e f l : joint m g e f = Ok l ->
  l <> [] /\ exists w, forall p, In p l -> In (at_lane p) (lanes_of m (sg_id (e_seg e))) /\ at_pos p = mk_lpos (if w : bool then length_of m (at_lane p) else 0%Q) 0 0 /\
    exists x b, (In (x, b) (confluent m (at_lane p) w) \/ In (x, b) (ongoing (net m) (at_lane p) w)) /\ seg_of m x = sg_id (e_seg f).
Proof.
  unfold joint. destruct (DetermineEdgeEnd g e f) as [[w|]| |]; cbn [obind]; try discriminate. unfold ComputeAllRoadPositions, throw_unless. intro E.
  assert (G : forall set p, In p (end_positions m set e w f) -> In (at_lane p) (lanes_of m (sg_id (e_seg e))) /\ at_pos p = mk_lpos (if w : bool then length_of m (at_lane p) else 0%Q) 0 0 /\
    exists x b, In (x, b) (set (at_lane p) w) /\ seg_of m x = sg_id (e_seg f)).
  { intros set p I. unfold end_positions in I. apply in_map_iff in I. destruct I as (x & <- & I). apply filter_In in I. destruct I as [I X]. cbn [at_lane at_pos]. split; auto. split; auto.
    apply existsb_exists in X. destruct X as ([y b] & Iy & Ey). apply Nat.eqb_eq in Ey. exists y, b. auto. }
  destruct (nonempty (end_positions m (confluent m) e w f)) eqn:N.
  - rewrite N in E. inversion E; subst l. split; [intro X; rewrite X in N; discriminate|]. exists w. intros p I. destruct (G _ p I) as (A & B & x & b & C & D). eauto 8.
  - destruct (nonempty (end_positions m (ongoing (net m)) e w f)) eqn:N2; [|discriminate]. inversion E; subst l. split; [intro X; rewrite X in N2; discriminate|].
    exists w. intros p I. destruct (G _ p I) as (A & B & x & b & C & D). eauto 8.
Qed.
Lemma nodup_filter_lanes set e w f : NoDup (lanes_of m (sg_id (e_seg e))) -> NoDup (map at_lane (end_positions m set e w f)).
Proof. intro N. unfold end_positions. rewrite map_map. cbn [at_lane]. rewrite map_id. apply NoDup_filter. auto. Qed.
Lemma joint_nodup g e f l : NoDup (lanes_of m (sg_id (e_seg e))) -> joint m g e f = Ok l -> NoDup (map at_lane l).
Proof.
  intro N. unfold joint. destruct (DetermineEdgeEnd g e f) as [[w|]| |]; cbn [obind]; try discriminate. unfold ComputeAllRoadPositions, throw_unless. intro E.
  destruct (nonempty (if nonempty (end_positions m (confluent m) e w f) then _ else _)); [|discriminate]. inversion E; subst l.
  destruct (nonempty (end_positions m (confluent m) e w f)); apply nodup_filter_lanes; auto.
Qed.

Lemma make_phases_ok g tol start goal es : forall prev r, make_phases m g tol start goal prev es = Ok r ->
  length r = length es /\
  (forall k e p, nth_error es k = Some e -> nth_error r k = Some p ->
     (exists a b, MakePhase m tol e a b = Ok p) /\
     (match k with O => (match prev with None => ph_starts p = [start] | Some f => joint m g e f = Ok (ph_starts p) end)
                 | S j => exists f, nth_error es j = Some f /\ joint m g e f = Ok (ph_starts p) end) /\
     (match nth_error es (S k) with None => ph_ends p = [goal] | Some f => joint m g e f = Ok (ph_ends p) end)).
Proof.
  induction es as [|e es IH]; intros prev r E; cbn [make_phases] in E.
  - inversion E; subst. split; auto. intros [|k] e p X; discriminate X.
  - destruct (match prev with None => Ok [start] | Some p => joint m g e p end) as [a| |] eqn:Ea; cbn [obind] in E; try discriminate.
    destruct (match es with [] => Ok [goal] | n :: _ => joint m g e n end) as [b| |] eqn:Eb; cbn [obind] in E; try discriminate.
    destruct (MakePhase m tol e a b) as [ph| |] eqn:Ep; cbn [obind] in E; try discriminate.
    destruct (make_phases m g tol start goal (Some e) es) as [r'| |] eqn:Er; cbn [omap] in E; try discriminate. inversion E; subst r; clear E.
    destruct (IH (Some e) r' Er) as [L H]. split; [cbn; auto|]. destruct (make_phase_ok tol e a b ph Ep) as (Sa & Sb & _).
    intros [|k] f p Nf Np; cbn [nth_error] in Nf, Np.
    + inversion Nf; inversion Np; subst f p. split; [eauto|]. split.
      * rewrite Sa. destruct prev; [auto|congruence].
      * rewrite Sb. cbn [nth_error]. destruct es; cbn; [congruence|auto].
    + destruct (H k f p Nf Np) as (A & B & C). split; [exact A|]. split; [|exact C]. destruct k; [exists e; auto|].
      destruct B as (f' & B1 & B2). exists f'. auto.
Qed.

Lemma make_routes_ok g tol start goal l rs : make_routes m g tol start goal l = Ok rs ->
  Forall2 (fun es r => make_phases m g tol start goal None es = Ok r /\ r <> []) l rs.
Proof.
  revert rs. induction l as [|es l IH]; intros rs E; cbn [make_routes] in E; [inversion E; constructor|].
  destruct (make_phases m g tol start goal None es) as [p| |] eqn:P; cbn [obind] in E; try discriminate.
  unfold Route, throw_unless in E. destruct (nonempty p) eqn:N; cbn [obind] in E; try discriminate.
  destruct (make_routes m g tol start goal l) as [rs'| |]; cbn [omap] in E; try discriminate. inversion E; subst. constructor; auto. split; auto. intros ->. discriminate.
Qed.

(** ** Lengths of the ranges *)
Local Notation lengths_ok := (lengths_ok m).
Lemma dbl_max_pos : (0 <= dbl_max)%Q.
Proof. unfold dbl_max. change 0%Q with (inject_Z 0). rewrite <- Zle_Qle. apply Z.leb_le. vm_compute. reflexivity. Qed.
Lemma length_of_ok l : lengths_ok -> (0 <= length_of m l <= dbl_max)%Q.
Proof. intro L. unfold length_of. destruct (len (net m) l) as [x|] eqn:E; [eauto|]. split; [lra|apply dbl_max_pos]. Qed.
Lemma equivalent_within ref l tol s : lengths_ok -> FindEquivalentSCoordinate m ref l tol = Ok s -> (0 <= s <= length_of m l)%Q.
Proof.
  intro L. pose proof (length_of_ok l L) as B. unfold FindEquivalentSCoordinate, clamp. set (t := length_of m l) in *. clearbody t.
  set (v := (_ / _ * t)%Q). clearbody v. destruct (Qltb t 0) eqn:X; cbn [omap]; [discriminate|].
  intro E. injection E as <-. qcases; cbn [andb]; lra.
Qed.
Lemma phase_ranges_spans tol s e ls l : lengths_ok -> phase_ranges m tol s e ls = Ok l -> forall x, In x l -> (span x <= length_of m (lane_id x))%Q.
Proof.
  intro L. revert l. induction ls as [|k ls IH]; intros l E; cbn in E; [inversion E; intros ? []|].
  destruct (FindEquivalentSCoordinate m s k tol) as [a| |] eqn:Ea; cbn in E; try discriminate.
  destruct (FindEquivalentSCoordinate m e k tol) as [b| |] eqn:Eb; cbn in E; try discriminate.
  destruct (SRange a b) as [r| |] eqn:Er; cbn in E; try discriminate.
  destruct (phase_ranges m tol s e ls) as [l'| |]; cbn in E; try discriminate. inversion E; subst. intros x [<-|I]; [|exact (IH l' eq_refl x I)].
  apply equivalent_within in Ea; auto. apply equivalent_within in Eb; auto. unfold SRange, throw_unless in Er. destruct (Qleb 0 a); [|discriminate]. destruct (Qleb 0 b); [|discriminate].
  inversion Er; subst r. unfold span. cbn [s_range s0 s1 lane_id]. apply Qabs_case; intros; lra.
Qed.
Lemma make_phase_measurable tol e a b p : lengths_ok -> MakePhase m tol e a b = Ok p -> ph_ranges p <> [] /\ forall x, In x (ph_ranges p) -> (span x <= dbl_max)%Q.
Proof.
  intros L E. pose proof (make_phase_ok tol e a b p E) as (_ & _ & _ & _ & _ & _ & P).
  split.
  - unfold Phase, throw_unless in P. intro X. rewrite X in P. cbn [nonempty] in P. repeat match type of P with (if ?c then _ else _) = _ => destruct c; try discriminate end.
  - unfold MakePhase, throw_unless in E. destruct (nonempty a); [|discriminate]. destruct (nonempty b); [|discriminate].
    destruct (forallb _ a); [|discriminate]. destruct (forallb _ b); [|discriminate]. destruct a as [|s a]; [discriminate|]. destruct b as [|z b]; [discriminate|].
    destruct (phase_ranges m tol s z (lanes_of m (sg_id (e_seg e)))) as [rs| |] eqn:R; cbn [obind] in E; try discriminate.
    destruct (phase_fields _ _ _ _ _ _ E) as (_ & _ & _ & D). rewrite D. intros x I. pose proof (phase_ranges_spans tol s z _ rs L R x I).
    pose proof (length_of_ok (lane_id x) L). lra.
Qed.
Lemma make_phases_measurable g tol start goal es prev r : lengths_ok -> make_phases m g tol start goal prev es = Ok r -> measurable r.
Proof.
  intros L E p I. destruct (make_phases_ok g tol start goal es prev r E) as [Le H]. destruct (In_nth_error _ _ I) as [k Nk].
  destruct (nth_error es k) as [e|] eqn:Ne.
  - destruct (H k e p Ne Nk) as ((a & b & M) & _). eapply make_phase_measurable; eauto.
  - apply nth_error_None in Ne. assert (k < length r) by (apply nth_error_Some; congruence). lia.
Qed.
Lemma make_phases_lanes g tol start goal es prev r : (forall s, NoDup (lanes_of m s)) -> make_phases m g tol start goal prev es = Ok r -> forall p, In p r -> one_per_lane p.
Proof.
  intros N E p I. destruct (make_phases_ok g tol start goal es prev r E) as [Le H]. destruct (In_nth_error _ _ I) as [k Nk].
  destruct (nth_error es k) as [e|] eqn:Ne.
  - destruct (H k e p Ne Nk) as (_ & _ & X). unfold one_per_lane. destruct (nth_error es (S k)); [eapply joint_nodup; eauto|]. rewrite X. repeat constructor. intros [].
  - apply nth_error_None in Ne. assert (k < length r) by (apply nth_error_Some; congruence). lia.
Qed.

(** ** ComputeRoutes *)
Lemma validate_constraints c : (ValidateRoutingConstraints c = Ok tt /\ (forall q, max_phase c = Some q -> (0 <= q)%Q) /\ (forall q, max_route c = Some q -> (0 <= q)%Q) /\
    (forall p q, max_phase c = Some p -> max_route c = Some q -> (p <= q)%Q)) \/
  (ValidateRoutingConstraints c = Throw /\ ~ ((forall q, max_phase c = Some q -> (0 <= q)%Q) /\ (forall q, max_route c = Some q -> (0 <= q)%Q) /\
    (forall p q, max_phase c = Some p -> max_route c = Some q -> (p <= q)%Q))).
Proof.
  unfold ValidateRoutingConstraints, throw_unless. destruct (max_phase c) as [p|], (max_route c) as [q|]; cbn [at_most].
  - destruct (Qleb_spec 0 p); [|right; split; auto; intros (A & _); specialize (A p eq_refl); lra].
    destruct (Qleb_spec 0 q); [|right; split; auto; intros (_ & A & _); specialize (A q eq_refl); lra].
    destruct (Qleb_spec p q); [|right; split; auto; intros (_ & _ & A); specialize (A p q eq_refl eq_refl); lra].
    left. split; auto. repeat split; congruence.
  - destruct (Qleb_spec 0 p); [|right; split; auto; intros (A & _); specialize (A p eq_refl); lra]. left. split; auto. repeat split; congruence.
  - destruct (Qleb_spec 0 q); [|right; split; auto; intros (_ & A & _); specialize (A q eq_refl); lra]. left. split; auto. repeat split; congruence.
  - left. split; auto. repeat split; congruence.
Qed.

(** What ComputeRoutes does before filtering. *)
Definition unfiltered (rt : router) (start goal : rpos) (seqs : list (list edge)) (rs : list route) : Prop :=
  exists sn en raw,
    known m (at_lane start) = true /\ known m (at_lane goal) = true /\
    FindNodeAt (node_order m) (r_graph rt) (bp_of m (at_lane start) false) = Some sn /\
    FindNodeAt (node_order m) (r_graph rt) (bp_of m (at_lane goal) true) = Some en /\
    FindAllEdgeSequences (a_side_of m) (r_graph rt) sn en = Ok raw /\
    MaybeAddStartAndEndEdges m (r_graph rt) start goal raw = Ok seqs /\
    make_routes m (r_graph rt) (r_tol rt) start goal seqs = Ok rs.
Lemma compute_split rt start goal c l : ComputeRoutes m rt start goal c = Ok l ->
  exists seqs rs, unfiltered rt start goal seqs rs /\ ValidateRoutingConstraints c = Ok tt /\ FilterRoutes c rs = Ok l /\ validate_routes m l = Ok tt.
Proof.
  unfold ComputeRoutes, throw_unless. intro E. destruct (known m (at_lane start)) eqn:K1; [|discriminate]. destruct (known m (at_lane goal)) eqn:K2; [|discriminate].
  destruct (ValidateRoutingConstraints c) as [[]| |] eqn:V; cbn [obind] in E; try discriminate.
  destruct (FindNodeAt _ _ (bp_of m (at_lane start) false)) as [sn|] eqn:F1; [|discriminate].
  destruct (FindNodeAt _ _ (bp_of m (at_lane goal) true)) as [en|] eqn:F2; [|discriminate].
  destruct (FindAllEdgeSequences _ _ sn en) as [raw| |] eqn:S; cbn [obind] in E; try discriminate.
  destruct (MaybeAddStartAndEndEdges _ _ _ _ raw) as [seqs| |] eqn:A; cbn [obind] in E; try discriminate.
  destruct (make_routes _ _ _ _ _ seqs) as [rs| |] eqn:R; cbn [obind] in E; try discriminate.
  destruct (FilterRoutes c rs) as [l'| |] eqn:Fl; cbn [obind] in E; try discriminate.
  destruct (validate_routes m l') as [[]| |] eqn:Va; cbn [obind] in E; try discriminate. inversion E; subst l'.
  exists seqs, rs. split; [|auto]. exists sn, en, raw. auto 8.
Qed.
Lemma compute_join rt start goal c seqs rs : unfiltered rt start goal seqs rs -> ValidateRoutingConstraints c = Ok tt ->
  ComputeRoutes m rt start goal c = obind (FilterRoutes c rs) (fun l => obind (validate_routes m l) (fun _ => Ok l)).
Proof.
  intros (sn & en & raw & K1 & K2 & F1 & F2 & S & A & R) V. unfold ComputeRoutes, throw_unless. rewrite K1, K2, V. cbn [obind]. rewrite F1, F2, S. cbn [obind]. rewrite A. cbn [obind]. rewrite R. reflexivity.
Qed.
Lemma unfiltered_from rt start goal seqs rs r : unfiltered rt start goal seqs rs -> In r rs ->
  exists es, In es seqs /\ make_phases m (r_graph rt) (r_tol rt) start goal None es = Ok r /\ r <> [].
Proof.
  intros (sn & en & raw & _ & _ & _ & _ & _ & _ & R) I. apply make_routes_ok in R. induction R as [|es r' l rs' H R IH]; [destruct I|].
  destruct I as [<-|I]; [exists es; destruct H; split; [left|]; auto|]. destruct (IH I) as (es' & A & B). exists es'. split; [right|]; auto.
Qed.

(** Filtering with the trivial constraints keeps everything. *)
Lemma filter_trivial rs : FilterRoutes (mk_constraints true None None) rs = Ok rs.
Proof. induction rs as [|r rs IH]; cbn; auto. cbn in IH. rewrite IH. reflexivity. Qed.

Lemma has_switch_spec r : r <> [] -> (forall p, In p r -> one_per_lane p) ->
  (exists p s, hd_error r = Some p /\ ph_starts p = [s]) -> single_goal r ->
  (forall k p q, nth_error r k = Some p -> nth_error r (S k) = Some q -> listed_alike (net m) p q) ->
  (HasLaneSwitch r = Ok false /\ no_lane_switch (net m) r) \/ (HasLaneSwitch r = Ok true /\ ~ no_lane_switch (net m) r).
Proof.
  intros N U (p & s & Hp & Hs) G A. destruct r as [|p' r]; [congruence|]. inversion Hp; subst p'. unfold HasLaneSwitch. rewrite Hs.
  assert (X : switch_loop (at_lane s) (p :: r) = match r with [] => match ph_ends p with [] => UB | e :: _ => Ok (negb (Nat.eqb (at_lane s) (at_lane e))) end | _ => switch_loop (at_lane s) (p :: r) end).
  { destruct r as [|q r]; auto. destruct (G p (or_introl eq_refl) eq_refl) as [e Ee]. cbn. rewrite Ee. cbn. rewrite Nat.eqb_sym. destruct (Nat.eqb (at_lane s) (at_lane e)); auto. }
  rewrite <- X. clear X.
  destruct (switch_loop_spec (net m) (p :: r) N U A s (at_lane s) eq_refl) as [[E T]|[E T]]; rewrite E; [left|right]; (split; [reflexivity|]).
  - exists p, r, s. rewrite Hs. auto.
  - intros (p0 & r0 & s0 & E0 & H0 & T0). inversion E0; subst p0 r0. rewrite Hs in H0. inversion H0; subst s0. auto.
Qed.
End Routes.
