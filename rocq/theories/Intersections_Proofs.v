From Coq Require Import List QArith Bool Arith Lia Permutation.
From Verif Require Import Base Maps Regions_Model Regions_Spec Regions_Proofs Phases_Model Phases_Spec Phases_Proofs
  Hierarchy_Proofs Rulebook_Proofs RuleStates_Proofs Intersections_Model Intersections_Spec.
Import ListNotations.
Local Open Scope nat_scope.

(** ** Book contents *)
Definition keyed (b : book) : Prop := NoDup (map fst b) /\ forall k i, In (k, i) b -> i_id i = k.

Lemma add_spec moves i b : keyed b -> match AddIntersection moves i b with
  | Ok b' => exists x, i = Some x /\ mfind Nat.eqb (i_id x) b = None /\ b' = b ++ [(i_id x, x)] /\ keyed b'
  | Throw => i = None \/ exists x y, i = Some x /\ mfind Nat.eqb (i_id x) b = Some y
  | UB => moves = true /\ exists x y, i = Some x /\ mfind Nat.eqb (i_id x) b = Some y
  end.
Proof.
  intros [N K]. destruct i as [x|]; cbn [AddIntersection]; auto.
  pose proof (memplace_spec Nat.eqb nat_eqb_ok (i_id x) x b) as M.
  destruct (memplace Nat.eqb (i_id x) x b) as [b'|].
  - destruct M as (M1 & -> & _). exists x. split; auto. split; auto. split; auto. split.
    + rewrite map_app. cbn. apply NoDup_snoc; auto. apply (mfind_none Nat.eqb nat_eqb_ok). exact M1.
    + intros k i H. apply in_app_or in H. destruct H as [H|[H|[]]]; auto. inversion H; auto.
  - destruct M as [y M]. destruct moves; eauto.
Qed.

Lemma add_all_spec moves h : forall b, keyed b -> match add_all moves h b with
  | Ok b' => keyed b' /\ forall id i, mfind Nat.eqb id b' = Some i <->
      mfind Nat.eqb id b = Some i \/ (mfind Nat.eqb id b = None /\ first_added h id i)
  | Throw => False
  | UB => moves = true
  end.
Proof.
  induction h as [|o h IH]; intros b K; cbn [add_all].
  - split; auto. intros id i. split; auto. intros [H|(_ & h1 & h2 & H & _)]; auto. destruct h1; discriminate.
  - pose proof (add_spec moves o b K) as S. destruct (AddIntersection moves o b) as [b'| |].
    + destruct S as (x & -> & F & -> & K'). specialize (IH _ K'). destruct (add_all moves h (b ++ [(i_id x, x)])) as [b2| |]; auto.
      destruct IH as [K2 IH]. split; auto. intros id i. rewrite IH.
      assert (Fx : forall k, mfind Nat.eqb k (b ++ [(i_id x, x)]) = match mfind Nat.eqb k b with Some v => Some v | None => if Nat.eqb k (i_id x) then Some x else None end).
      { intro k. rewrite (mfind_app Nat.eqb). destruct (mfind Nat.eqb k b); auto. }
      rewrite Fx. destruct (mfind Nat.eqb id b) as [v|] eqn:E.
      * split; [intros [H|[H _]]; auto; discriminate|]. intros [H|[H _]]; auto; discriminate.
      * destruct (Nat.eqb_spec id (i_id x)) as [->|D].
        -- split.
           ++ intros [H|[H _]]; [|discriminate]. inversion H; subst i. right. split; auto. exists [], h. split; [auto|]. split; [auto|]. intros j [].
           ++ intros [H|(_ & h1 & h2 & H & H1 & H2)]; [discriminate|]. left. destruct h1 as [|o h1]; inversion H; subst; auto.
              exfalso. apply (H2 x); [left; auto|reflexivity].
        -- split.
           ++ intros [H|(_ & h1 & h2 & -> & H1 & H2)]; [discriminate|]. right. split; auto. exists (Some x :: h1), h2. split; auto. split; auto.
              intros j [H|H]; [inversion H; subst; auto|auto].
           ++ intros [H|(_ & h1 & h2 & H & H1 & H2)]; [discriminate|]. right. split; auto.
              destruct h1 as [|o h1]; inversion H; subst; [congruence|]. exists h1, h2. split; auto. split; auto. intros j Hj. apply H2. right; auto.
    + specialize (IH b K). destruct (add_all moves h b) as [b2| |]; auto. destruct IH as [K2 IH]. split; auto.
      intros id i. rewrite IH. destruct (mfind Nat.eqb id b) as [v|] eqn:E.
      * split; (intros [H|[H _]]; auto; discriminate).
      * split; (intros [H|(_ & h1 & h2 & H & H1 & H2)]; [discriminate|]); right; split; auto.
        -- exists (o :: h1), h2. subst h. split; auto. split; auto. intros j [Hj|Hj]; auto. subst o.
           destruct S as [S|(x & y & S & F)]; [discriminate|]. inversion S; subst x. congruence.
        -- destruct h1 as [|o' h1]; inversion H; subst.
           ++ destruct S as [S|(x & y & S & F)]; [discriminate|]. inversion S; subst x. congruence.
           ++ exists h1, h2. split; auto. split; auto. intros j Hj. apply H2. right; auto.
    + destruct S; auto.
Qed.

Lemma first_added_cons o h id i : first_added h id i -> (forall j, o = Some j -> i_id j <> id) -> first_added (o :: h) id i.
Proof.
  intros (h1 & h2 & -> & H1 & H2) N. exists (o :: h1), h2. split; auto. split; auto. intros j [H|H]; auto.
Qed.

Lemma add_all_once h : forall b, keyed b -> ids_once h -> (forall i, In (Some i) h -> mfind Nat.eqb (i_id i) b = None) ->
  forall moves, exists b', add_all moves h b = Ok b' /\ map snd b' = map snd b ++ flat_map (fun o => match o with Some i => [i] | None => [] end) h.
Proof.
  induction h as [|o h IH]; intros b K O F moves; cbn [add_all flat_map].
  - exists b. rewrite app_nil_r. auto.
  - assert (O' : ids_once h).
    { intros h1 i h2 -> j Hj. apply (O (o :: h1) i h2 eq_refl j). right; auto. }
    pose proof (add_spec moves o b K) as S. destruct (AddIntersection moves o b) as [b'| |].
    + destruct S as (x & -> & Fx & -> & K'). destruct (IH _ K' O') with (moves := moves) as (b2 & E & M).
      { intros i Hi. rewrite (mfind_app Nat.eqb), (F i (or_intror Hi)). cbn. destruct (Nat.eqb_spec (i_id i) (i_id x)) as [Ei|]; auto.
        exfalso. apply in_split in Hi. destruct Hi as (h1 & h2 & ->). apply (O (Some x :: h1) i h2 eq_refl x); [left; auto|auto]. }
      exists b2. split; auto. rewrite M, map_app. cbn. rewrite <- app_assoc. reflexivity.
    + destruct S as [->|(x & y & -> & Fx)].
      * destruct (IH b K O') with (moves := moves) as (b2 & E & M); [intros i Hi; apply F; right; auto|]. exists b2. auto.
      * rewrite (F x (or_introl eq_refl)) in Fx. discriminate.
    + destruct S as (_ & x & y & -> & Fx). rewrite (F x (or_introl eq_refl)) in Fx. discriminate.
Qed.

(** ** Searches *)
Lemma find_inter_ok (inc : inter -> outcome bool) (P : inter -> Prop) l :
  (forall i, In i l -> exists x, inc i = Ok x /\ (x = true <-> P i)) ->
  exists r, find_inter inc l = Ok r /\ search_result l P r.
Proof.
  induction l as [|i l IH]; intro H; cbn [find_inter].
  - exists None. split; auto. intros i [].
  - destruct (H i (or_introl eq_refl)) as (x & -> & X). cbn [obind]. destruct x.
    + exists (Some i). split; auto. split; [left; auto|]. apply X; auto.
    + destruct IH as (r & -> & R); [intros j Hj; apply H; right; auto|]. exists r. split; auto.
      destruct r as [j|]; cbn in *.
      * destruct R; split; auto.
      * intros j [->|Hj]; auto. intro Pj. apply X in Pj. discriminate.
Qed.

Lemma find_inter_sound (inc : inter -> outcome bool) l i : find_inter inc l = Ok (Some i) -> In i l /\ inc i = Ok true.
Proof.
  induction l as [|j l IH]; cbn [find_inter]; [discriminate|]. destruct (inc j) as [x| |] eqn:E; cbn [obind]; try discriminate.
  destruct x; [intro H; inversion H; subst; split; [left|]; auto|]. intro H. destruct (IH H). split; [right|]; auto.
Qed.

Section Inc.
Variable current : inter -> option nat.

Lemma current_phase_ok i : NoDup (keys (rg_phases (i_ring i))) -> phase_known current i ->
  exists o, current_phase current i = Ok o /\ forall p, o = Some p <-> at_phase current i p.
Proof.
  intros N K. unfold current_phase, at_phase. destruct (current i) as [id|] eqn:E.
  - specialize (K id E). unfold at_key. destruct (mfind Nat.eqb id (rg_phases (i_ring i))) as [p|] eqn:F.
    + exists (Some p). split; auto. intro q. split.
      * intro H. inversion H; subst q. exists id. split; auto. apply (mfind_in Nat.eqb nat_eqb_ok). exact F.
      * intros (id' & H & I). inversion H; subst id'. rewrite (mfind_nodup Nat.eqb nat_eqb_ok id q) in F; auto.
    + exfalso. apply (mfind_none Nat.eqb nat_eqb_ok) in F. exact (F K).
  - exists None. split; auto. intro p. split; [discriminate|]. intros (id & H & _). discriminate.
Qed.

Lemma has_keys {V} id (m : list (nat * V)) : has id m = true <-> In id (keys m).
Proof. exact (has_in id m). Qed.

Lemma includes_rule_ok id i : NoDup (keys (rg_phases (i_ring i))) -> phase_known current i ->
  exists x, IncludesRule current id i = Ok x /\ (x = true <-> governs_rule current id i).
Proof.
  intros N K. destruct (current_phase_ok i N K) as (o & E & O). unfold IncludesRule, discrete_states. rewrite E. cbn [omap option_map].
  destruct o as [p|]; eexists; (split; [reflexivity|]); unfold governs_rule.
  - cbn. rewrite has_keys. split; [intro H; exists p; split; auto; apply O; auto|]. intros (q & Hq & H). apply O in Hq. inversion Hq; subst; auto.
  - cbn. split; [discriminate|]. intros (q & Hq & _). apply O in Hq. discriminate.
Qed.
Lemma includes_row_ok id i : NoDup (keys (rg_phases (i_ring i))) -> phase_known current i ->
  exists x, IncludesRow current id i = Ok x /\ (x = true <-> governs_row current id i).
Proof.
  intros N K. destruct (current_phase_ok i N K) as (o & E & O). unfold IncludesRow, row_states. rewrite E. cbn [omap option_map].
  destruct o as [p|]; eexists; (split; [reflexivity|]); unfold governs_row.
  - cbn. rewrite has_keys. split; [intro H; exists p; split; auto; apply O; auto|]. intros (q & Hq & H). apply O in Hq. inversion Hq; subst; auto.
  - cbn. split; [discriminate|]. intros (q & Hq & _). apply O in Hq. discriminate.
Qed.
Lemma includes_light_ok light_of id i : NoDup (keys (rg_phases (i_ring i))) -> phase_known current i ->
  exists x, IncludesLight current light_of id i = Ok x /\ (x = true <-> shows_light current light_of id i).
Proof.
  intros N K. destruct (current_phase_ok i N K) as (o & E & O). unfold IncludesLight, bulb_states. rewrite E. cbn [omap].
  eexists; split; [reflexivity|]. unfold shows_light. destruct o as [p|].
  - destruct (ph_bulbs p) as [bs|] eqn:B.
    + rewrite existsb_exists. split.
      * intros ([b s] & Hb & Ht). apply Nat.eqb_eq in Ht. cbn in Ht. exists p, bs, b. split; [apply O; auto|]. split; auto. split; auto.
        apply (in_map fst) in Hb. exact Hb.
      * intros (q & bs' & b & Hq & H1 & H2 & H3). apply O in Hq. inversion Hq; subst q. rewrite B in H1. inversion H1; subst bs'.
        apply in_map_iff in H2. destruct H2 as (y & <- & Hy). exists y. split; auto. apply Nat.eqb_eq; auto.
    + split; [discriminate|]. intros (q & bs' & b & Hq & H1 & _). apply O in Hq. inversion Hq; subst q. congruence.
  - split; [discriminate|]. intros (q & bs' & b & Hq & _). apply O in Hq. discriminate.
Qed.
End Inc.

(** ** Regions *)
Lemma any_intersects_ok r region tol : lvalid r -> Forall lvalid region -> (0 <= tol)%Q ->
  exists x, any_intersects r region tol = Ok x /\ (x = true <-> exists y, In y region /\ lnear tol r y).
Proof.
  intros V F T. induction F as [|y l Vy F IH]; cbn [any_intersects].
  - exists false. split; auto. split; [discriminate|]. intros (y & [] & _).
  - destruct (lintersects_pos r y tol V Vy T) as (x & -> & X). cbn [obind]. destruct x.
    + exists true. split; auto. split; auto. intros _. exists y. split; [left; auto|]. apply X; auto.
    + destruct IH as (z & -> & Z). exists z. split; auto. rewrite Z. split.
      * intros (w & Hw & N). exists w. split; auto. right; auto.
      * intros (w & [<-|Hw] & N); [apply X in N; discriminate|]. exists w. auto.
Qed.
Lemma region_hit_ok own region tol : Forall lvalid own -> Forall lvalid region -> (0 <= tol)%Q ->
  exists x, region_hit own region tol = Ok x /\ (x = true <-> rnear tol own region).
Proof.
  intros F G T. induction F as [|y l Vy F IH]; cbn [region_hit].
  - exists false. split; auto. split; [discriminate|]. intros (a & b & [] & _).
  - destruct (any_intersects_ok y region tol Vy G T) as (x & -> & X). cbn [obind]. destruct x.
    + exists true. split; auto. split; auto. intros _. destruct (proj1 X eq_refl) as (b & Hb & N). exists y, b. split; [left; auto|]. auto.
    + destruct IH as (z & -> & Z). exists z. split; auto. rewrite Z. split.
      * intros (a & b & Ha & H). exists a, b. split; auto. right; auto.
      * intros (a & b & [<-|Ha] & Hb & N).
        -- assert (false = true) by (apply X; exists b; auto). discriminate.
        -- exists a, b. auto.
Qed.
Lemma find_intersections_ok l region tol : (forall i, In i l -> Forall lvalid (i_region i)) -> Forall lvalid region -> (0 <= tol)%Q ->
  exists r, FindIntersections l region tol = Ok r /\ sublist r l /\ forall i, In i r <-> In i l /\ rnear tol (i_region i) region.
Proof.
  intros V G T. induction l as [|i l IH]; cbn [FindIntersections].
  - exists []. split; auto. split; [constructor|]. intro i. split; [intros []|intros [[] _]].
  - destruct (region_hit_ok (i_region i) region tol (V i (or_introl eq_refl)) G T) as (x & -> & X). cbn [obind].
    destruct IH as (r & -> & S & R); [intros j Hj; apply V; right; auto|]. cbn [obind]. eexists. split; [reflexivity|].
    destruct x.
    + split; [constructor; auto|]. intro j. split.
      * intros [<-|Hj]; [split; [left; auto|apply X; auto]|]. apply R in Hj. destruct Hj; split; auto; right; auto.
      * intros [[<-|Hj] N]; [left; auto|]. right. apply R. auto.
    + split; [constructor; auto|]. intro j. rewrite R. split.
      * intros [Hj N]. split; auto. right; auto.
      * intros [[<-|Hj] N]; auto. apply X in N. discriminate.
Qed.
