(** Proofs about phase rings, ring books and phase providers. *)
From Coq Require Import List QArith Bool Arith Lia.
From Verif Require Import Base Maps Phases_Model Phases_Spec Hierarchy_Proofs Rulebook_Proofs.
Import ListNotations.

(** ** PhaseRing *)
Lemma has_in {V} k (m : list (nat * V)) : has k m = true <-> In k (keys m).
Proof. unfold has, keys. apply (mhas_in Nat.eqb nat_eqb_ok). Qed.

Lemma subset_same_size (a b : list nat) : NoDup a -> length a = length b -> incl a b -> same_set a b.
Proof. intros N L I x. split; [apply I|]. apply (NoDup_length_incl N); [lia|exact I]. Qed.

Lemma same_set_length (a b : list nat) : NoDup a -> NoDup b -> same_set a b -> length a = length b.
Proof.
  intros Na Nb S. apply Nat.le_antisymm; apply NoDup_incl_length; auto; intros x H; apply S; auto.
Qed.

Lemma same_keys_iff {V} (m ref : list (nat * V)) : NoDup (keys m) -> NoDup (keys ref) ->
  (same_keys m ref = true <-> same_set (keys m) (keys ref)).
Proof.
  intros Nm Nr. unfold same_keys. rewrite andb_true_iff, Nat.eqb_eq, forallb_forall. split.
  - intros [L F]. apply subset_same_size; auto.
    + unfold keys. rewrite !map_length. exact L.
    + intros x H. unfold keys in H. apply in_map_iff in H. destruct H as [p [E H]]. subst. apply has_in. auto.
  - intro S. split.
    + generalize (same_set_length _ _ Nm Nr S). unfold keys. rewrite !map_length. auto.
    + intros p H. apply has_in. apply S. unfold keys. apply in_map. exact H.
Qed.

Definition covered (ref p : phase) : Prop :=
  same_rules p ref /\
  (forall rb, ph_bulbs ref = Some rb -> exists pb, ph_bulbs p = Some pb /\ same_set (keys pb) (keys rb)).

Lemma verify_phase_ok ref p : phase_maps ref -> phase_maps p -> (verify_phase ref p = Ok tt <-> covered ref p).
Proof.
  intros (R1 & R2 & R3) (P1 & P2 & P3). unfold verify_phase, throw_unless, covered, same_rules.
  destruct (same_keys (ph_row p) (ph_row ref)) eqn:E1.
  2: { split; [discriminate|]. intros [[H _] _]. apply (proj2 (same_keys_iff _ _ P1 R1)) in H. congruence. }
  apply same_keys_iff in E1; auto.
  destruct (same_keys (ph_disc p) (ph_disc ref)) eqn:E2.
  2: { split; [discriminate|]. intros [[_ H] _]. apply (proj2 (same_keys_iff _ _ P2 R2)) in H. congruence. }
  apply same_keys_iff in E2; auto.
  destruct (ph_bulbs ref) as [rb|] eqn:B.
  - specialize (R3 _ eq_refl). destruct (ph_bulbs p) as [pb|] eqn:C.
    + specialize (P3 _ eq_refl). destruct (same_keys pb rb) eqn:E3.
      * apply same_keys_iff in E3; auto. split; auto. intros _. split; auto.
        intros rb' H. inversion H; subst. eauto.
      * split; [discriminate|]. intros [_ H]. destruct (H _ eq_refl) as (pb' & Hp & S). inversion Hp; subst.
        apply (proj2 (same_keys_iff _ _ P3 R3)) in S. congruence.
    + split; [discriminate|]. intros [_ H]. destruct (H _ eq_refl) as (pb' & Hp & S). discriminate.
  - split; auto. intros _. split; auto. intros rb H; discriminate.
Qed.

Lemma verify_each_ok ref ps : phase_maps ref -> (forall p, In p ps -> phase_maps p) ->
  (verify_each ref ps = Ok tt <-> forall p, In p ps -> covered ref p).
Proof.
  intros R. induction ps as [|p ps IH]; intros F; cbn [verify_each].
  - split; auto. intros _ p [].
  - assert (Fp : phase_maps p) by (apply F; left; auto).
    assert (Fs : forall q, In q ps -> phase_maps q) by (intros; apply F; right; auto).
    specialize (IH Fs). pose proof (verify_phase_ok ref p R Fp) as V.
    destruct (verify_phase ref p) as [[]| |] eqn:E; cbn [obind].
    + rewrite IH. split; intros H q Hq; [destruct Hq as [<-|Hq]; [apply V; auto|auto]|apply H; right; auto].
    + split; [discriminate|]. intro H. assert (Throw = Ok tt) by (apply V; apply H; left; auto). discriminate.
    + split; [discriminate|]. intro H. assert (UB = Ok tt) by (apply V; apply H; left; auto). discriminate.
Qed.

Lemma emplace_phases_ok ps : forall m,
  match emplace_phases ps m with
  | Ok m' => m' = m ++ map (fun p => (ph_id p, p)) ps /\ NoDup (map ph_id ps) /\ (forall p, In p ps -> ~ In (ph_id p) (keys m))
  | Throw => ~ (NoDup (map ph_id ps) /\ (forall p, In p ps -> ~ In (ph_id p) (keys m)))
  | UB => False
  end.
Proof.
  induction ps as [|p ps IH]; intro m; cbn [emplace_phases].
  - rewrite app_nil_r. repeat split; auto. constructor.
  - pose proof (memplace_spec Nat.eqb nat_eqb_ok (ph_id p) p m) as M.
    destruct (memplace Nat.eqb (ph_id p) p m) as [m1|].
    + destruct M as (M1 & M2 & _). apply (mfind_none Nat.eqb nat_eqb_ok) in M1. specialize (IH m1).
      assert (K : keys m1 = keys m ++ [ph_id p]) by (subst m1; unfold keys; rewrite map_app; reflexivity).
      destruct (emplace_phases ps m1) as [m2| |].
      * destruct IH as (I1 & I2 & I3). subst m1 m2. rewrite <- app_assoc. split; [reflexivity|]. split.
        -- cbn [map]. constructor; auto. intro H. apply in_map_iff in H. destruct H as (q & E & H).
           apply (I3 q H). rewrite K, E. apply in_or_app. right; left; auto.
        -- intros q [<-|H]; auto. intro H'. apply (I3 q H). rewrite K. apply in_or_app. auto.
      * intros [N F]. apply IH. cbn [map] in N. inversion N as [|? ? N1 N2]; subst. split; auto.
        intros q H H'. rewrite K in H'. apply in_app_or in H'. destruct H' as [H'|[H'|[]]].
        -- apply (F q); auto. right; auto.
        -- apply N1. rewrite H'. apply in_map. auto.
      * exact IH.
    + destruct M as [v M]. intros [_ F]. apply (F p); [left; auto|]. unfold keys.
      apply (mhas_in Nat.eqb nat_eqb_ok). apply mhas_true. eauto.
Qed.

(** Acceptance condition of the constructor. *)
Definition ring_args_ok (ps : list phase) (next : option (list (nat * list next_phase))) : Prop :=
  match ps with
  | [] => False
  | p0 :: _ =>
      NoDup (map ph_id ps) /\
      (forall n, next = Some n -> same_set (keys n) (map ph_id ps)) /\
      (forall p, In p ps -> covered p0 p)
  end.

Lemma make_next_ok ps next : NoDup (map ph_id ps) -> (forall n, next = Some n -> NoDup (keys n)) ->
  match make_next ps next with
  | Ok n => same_set (keys n) (map ph_id ps) /\ (next = Some n \/ next = None /\ forall id l, In (id, l) n -> l = [])
  | Throw => exists n, next = Some n /\ ~ same_set (keys n) (map ph_id ps)
  | UB => False
  end.
Proof.
  intros N Nn. unfold make_next. destruct next as [n|].
  - specialize (Nn n eq_refl). unfold throw_unless.
    destruct (Nat.eqb (length ps) (length n) && forallb (fun p => has (ph_id p) n) ps) eqn:E.
    + split; auto. apply andb_true_iff in E. destruct E as [E1 E2]. apply Nat.eqb_eq in E1.
      rewrite forallb_forall in E2. assert (S : same_set (map ph_id ps) (keys n)).
      { apply subset_same_size; auto. unfold keys. rewrite !map_length. auto. intros x H. apply in_map_iff in H.
        destruct H as (p & <- & H). apply has_in. auto. }
      intro x. symmetry. apply S.
    + exists n. split; auto. intro S. apply andb_false_iff in E. destruct E as [E|E].
      * apply Nat.eqb_neq in E. apply E. generalize (same_set_length _ _ Nn N S). unfold keys. rewrite !map_length. auto.
      * apply Bool.not_true_iff_false in E. apply E. apply forallb_forall. intros p H. apply has_in. apply S. apply in_map. auto.
  - split.
    + unfold keys. rewrite map_map. cbn [fst]. intro x; reflexivity.
    + right. split; auto. intros id l H. apply in_map_iff in H. destruct H as (p & E & _). inversion E; auto.
Qed.

Lemma PhaseRing_spec id ps next : (forall p, In p ps -> phase_maps p) -> (forall n, next = Some n -> NoDup (keys n)) ->
  match PhaseRing id ps next with
  | Ok r => ring_args_ok ps next /\ rg_id r = id /\ rg_phases r = map (fun p => (ph_id p, p)) ps /\
            same_set (keys (rg_next r)) (map ph_id ps) /\
            (next = Some (rg_next r) \/ next = None /\ forall i l, In (i, l) (rg_next r) -> l = [])
  | _ => ~ ring_args_ok ps next
  end.
Proof.
  intros P Nn. unfold PhaseRing, throw_unless. destruct ps as [|p0 ps']; [cbn; auto|].
  set (ps := p0 :: ps') in *. change (Nat.leb 1 (length ps)) with true.
  pose proof (emplace_phases_ok ps []) as M. destruct (emplace_phases ps []) as [m| |]; cbn [obind].
  - destruct M as (M1 & M2 & _). pose proof (make_next_ok ps next M2 Nn) as K.
    destruct (make_next ps next) as [n| |]; cbn [obind].
    + destruct K as [K1 K2]. pose proof (verify_each_ok p0 ps (P p0 (or_introl eq_refl)) P) as V.
      unfold verify_coverage. change (match ps with [] => Throw | r :: _ => verify_each r ps end) with (verify_each p0 ps).
      destruct (verify_each p0 ps) as [[]| |]; cbn [obind rg_id rg_phases rg_next].
      * split; [|split; [reflexivity|split; [exact M1|split; [exact K1|exact K2]]]].
        split; [exact M2|]. split; [|apply V; reflexivity].
        intros n' H'. destruct K2 as [K2|[K2 _]]; [|congruence].
        rewrite K2 in H'. inversion H'; subst. exact K1.
      * intros (_ & _ & H). assert (Throw = Ok tt) by (apply V; exact H). discriminate.
      * intros (_ & _ & H). assert (UB = Ok tt) by (apply V; exact H). discriminate.
    + destruct K as (n & K1 & K2). intros (_ & H & _). apply K2. apply H. exact K1.
    + destruct K.
  - intros (H & _). apply M. split; auto.
  - destruct M.
Qed.

Lemma same_rules_sym p q : same_rules p q -> same_rules q p.
Proof. intros [A B]. split; intro x; symmetry; [apply A|apply B]. Qed.
Lemma same_rules_trans p q r : same_rules p q -> same_rules q r -> same_rules p r.
Proof. intros [A B] [C D]. split; intro x; [rewrite (A x)|rewrite (B x)]; auto. Qed.

Lemma PhaseRing_ring_ok id ps next r : (forall p, In p ps -> phase_maps p) -> (forall n, next = Some n -> NoDup (keys n)) ->
  PhaseRing id ps next = Ok r -> ring_ok r.
Proof.
  intros P N E. pose proof (PhaseRing_spec id ps next P N) as S. rewrite E in S.
  destruct S as (A & _ & R & _). unfold ring_ok. rewrite R. destruct ps as [|p0 ps']; [destruct A|].
  set (ps := p0 :: ps') in *. destruct A as (A1 & A2 & A3). split; [|split; [|split]].
  - discriminate.
  - unfold keys. rewrite map_map. exact A1.
  - intros i p H. apply in_map_iff in H. destruct H as (q & H & I). inversion H; subst. auto.
  - rewrite map_map. cbn [snd]. rewrite map_id. intros p q Hp Hq.
    apply (same_rules_trans p p0 q); [apply A3; auto|apply same_rules_sym; apply A3; auto].
Qed.

(** ** Ring book *)
Lemma begin_phase_in pick r : rg_phases r <> [] -> In (begin_phase pick r) (map snd (rg_phases r)).
Proof.
  intro H. unfold begin_phase. destruct (rg_phases r) as [|[i p] l]; [congruence|].
  cbn [map snd]. destruct (Nat.lt_ge_cases pick (length (p :: map snd l))) as [L|L].
  - apply nth_In. exact L.
  - rewrite nth_overflow; auto. left; auto.
Qed.

Lemma begin_row pick r x : ring_ok r -> (In x (keys (ph_row (begin_phase pick r))) <-> covers_row r x).
Proof.
  intros (N & _ & _ & S). pose proof (begin_phase_in pick r N) as B. split.
  - intro H. exists (begin_phase pick r). auto.
  - intros (p & H & I). apply (proj1 (S _ _ B H)). exact I.
Qed.
Lemma begin_rule pick r x : ring_ok r -> (In x (keys (ph_disc (begin_phase pick r))) <-> covers_rule r x).
Proof.
  intros (N & _ & _ & S). pose proof (begin_phase_in pick r N) as B. split.
  - intro H. exists (begin_phase pick r). auto.
  - intros (p & H & I). apply (proj2 (S _ _ B H)). exact I.
Qed.
Lemma begin_nodup pick r : ring_ok r -> NoDup (keys (ph_row (begin_phase pick r))) /\ NoDup (keys (ph_disc (begin_phase pick r))).
Proof.
  intros (N & _ & M & _). pose proof (begin_phase_in pick r N) as B. apply in_map_iff in B.
  destruct B as ([i p] & E & B). cbn [snd] in E. destruct (M i p B) as (_ & M1 & M2 & _). rewrite E in *. auto.
Qed.

Definition content (b : rbook) : ringmap := fun id => mfind Nat.eqb id (rings b).

Record rinv (b : rbook) : Prop := {
  ri_id : forall id r, content b id = Some r -> rg_id r = id /\ ring_ok r;
  ri_keys : NoDup (keys (rings b));
  ri_row : forall x id, mfind Nat.eqb x (row_of b) = Some id <-> exists r, content b id = Some r /\ covers_row r x;
  ri_rule : forall x id, mfind Nat.eqb x (rule_of b) = Some id <-> exists r, content b id = Some r /\ covers_rule r x }.

Lemma put_rows id xs : forall b, NoDup xs -> (forall x, In x xs -> mfind Nat.eqb x (row_of b) = None) ->
  exists m, act_each (put_row id) xs b = (mk_rbook (rings b) m (rule_of b), true) /\
  forall x, mfind Nat.eqb x m = if in_dec Nat.eq_dec x xs then Some id else mfind Nat.eqb x (row_of b).
Proof.
  induction xs as [|y xs IH]; intros b N F; cbn [act_each].
  - exists (row_of b). split; [destruct b; reflexivity|]. intro x. reflexivity.
  - unfold act_seq, put_row at 1. pose proof (memplace_spec Nat.eqb nat_eqb_ok y id (row_of b)) as M.
    destruct (memplace Nat.eqb y id (row_of b)) as [m1|].
    + destruct M as (_ & _ & M). inversion N as [|? ? N1 N2]; subst.
      destruct (IH (mk_rbook (rings b) m1 (rule_of b)) N2) as (m & E & H).
      * intros x Hx. cbn [row_of]. rewrite M. destruct (Nat.eqb_spec x y); [subst; tauto|]. apply F. right; auto.
      * exists m. split; [exact E|]. intro x. rewrite H. cbn [row_of]. rewrite M.
        destruct (in_dec Nat.eq_dec x xs), (in_dec Nat.eq_dec x (y :: xs)) as [I|I]; auto.
        -- exfalso. apply I. right; auto.
        -- destruct I as [<-|I]; [|tauto]. rewrite Nat.eqb_refl. reflexivity.
        -- destruct (Nat.eqb_spec x y); auto. exfalso. apply I. left; auto.
    + destruct M as [v M]. rewrite F in M by (left; auto). discriminate.
Qed.
Lemma put_rules id xs : forall b, NoDup xs -> (forall x, In x xs -> mfind Nat.eqb x (rule_of b) = None) ->
  exists m, act_each (put_rule id) xs b = (mk_rbook (rings b) (row_of b) m, true) /\
  forall x, mfind Nat.eqb x m = if in_dec Nat.eq_dec x xs then Some id else mfind Nat.eqb x (rule_of b).
Proof.
  induction xs as [|y xs IH]; intros b N F; cbn [act_each].
  - exists (rule_of b). split; [destruct b; reflexivity|]. intro x. reflexivity.
  - unfold act_seq, put_rule at 1. pose proof (memplace_spec Nat.eqb nat_eqb_ok y id (rule_of b)) as M.
    destruct (memplace Nat.eqb y id (rule_of b)) as [m1|].
    + destruct M as (_ & _ & M). inversion N as [|? ? N1 N2]; subst.
      destruct (IH (mk_rbook (rings b) (row_of b) m1) N2) as (m & E & H).
      * intros x Hx. cbn [rule_of]. rewrite M. destruct (Nat.eqb_spec x y); [subst; tauto|]. apply F. right; auto.
      * exists m. split; [exact E|]. intro x. rewrite H. cbn [rule_of]. rewrite M.
        destruct (in_dec Nat.eq_dec x xs), (in_dec Nat.eq_dec x (y :: xs)) as [I|I]; auto.
        -- exfalso. apply I. right; auto.
        -- destruct I as [<-|I]; [|tauto]. rewrite Nat.eqb_refl. reflexivity.
        -- destruct (Nat.eqb_spec x y); auto. exfalso. apply I. left; auto.
    + destruct M as [v M]. rewrite F in M by (left; auto). discriminate.
Qed.
Lemma drop_rows xs : forall b, NoDup xs -> (forall x, In x xs -> mfind Nat.eqb x (row_of b) <> None) ->
  exists m, act_each drop_row xs b = (mk_rbook (rings b) m (rule_of b), true) /\
  forall x, mfind Nat.eqb x m = if in_dec Nat.eq_dec x xs then None else mfind Nat.eqb x (row_of b).
Proof.
  induction xs as [|y xs IH]; intros b N F; cbn [act_each].
  - exists (row_of b). split; [destruct b; reflexivity|]. intro x. reflexivity.
  - unfold act_seq, drop_row at 1.
    assert (H : has y (row_of b) = true).
    { unfold has. apply mhas_true. destruct (mfind Nat.eqb y (row_of b)) eqn:E; eauto. exfalso. apply (F y); auto. left; auto. }
    rewrite H. inversion N as [|? ? N1 N2]; subst.
    assert (M : forall x, mfind Nat.eqb x (merase Nat.eqb y (row_of b)) = if Nat.eqb x y then None else mfind Nat.eqb x (row_of b)).
    { intro x. destruct (Nat.eqb_spec x y) as [->|D]; [apply mfind_erase_eq; apply nat_eqb_ok|].
      apply (mfind_erase_neq Nat.eqb nat_eqb_ok). auto. }
    destruct (IH (mk_rbook (rings b) (merase Nat.eqb y (row_of b)) (rule_of b)) N2) as (m & E & K).
    + intros x Hx. cbn [row_of]. rewrite M. destruct (Nat.eqb_spec x y); [subst; tauto|]. apply F. right; auto.
    + exists m. split; [exact E|]. intro x. rewrite K. cbn [row_of]. rewrite M.
      destruct (in_dec Nat.eq_dec x xs), (in_dec Nat.eq_dec x (y :: xs)) as [I|I]; auto.
      * exfalso. apply I. right; auto.
      * destruct I as [<-|I]; [|tauto]. rewrite Nat.eqb_refl. reflexivity.
      * destruct (Nat.eqb_spec x y); auto. exfalso. apply I. left; auto.
Qed.
Lemma drop_rules xs : forall b, NoDup xs -> (forall x, In x xs -> mfind Nat.eqb x (rule_of b) <> None) ->
  exists m, act_each drop_rule xs b = (mk_rbook (rings b) (row_of b) m, true) /\
  forall x, mfind Nat.eqb x m = if in_dec Nat.eq_dec x xs then None else mfind Nat.eqb x (rule_of b).
Proof.
  induction xs as [|y xs IH]; intros b N F; cbn [act_each].
  - exists (rule_of b). split; [destruct b; reflexivity|]. intro x. reflexivity.
  - unfold act_seq, drop_rule at 1.
    assert (H : has y (rule_of b) = true).
    { unfold has. apply mhas_true. destruct (mfind Nat.eqb y (rule_of b)) eqn:E; eauto. exfalso. apply (F y); auto. left; auto. }
    rewrite H. inversion N as [|? ? N1 N2]; subst.
    assert (M : forall x, mfind Nat.eqb x (merase Nat.eqb y (rule_of b)) = if Nat.eqb x y then None else mfind Nat.eqb x (rule_of b)).
    { intro x. destruct (Nat.eqb_spec x y) as [->|D]; [apply mfind_erase_eq; apply nat_eqb_ok|].
      apply (mfind_erase_neq Nat.eqb nat_eqb_ok). auto. }
    destruct (IH (mk_rbook (rings b) (row_of b) (merase Nat.eqb y (rule_of b))) N2) as (m & E & K).
    + intros x Hx. cbn [rule_of]. rewrite M. destruct (Nat.eqb_spec x y); [subst; tauto|]. apply F. right; auto.
    + exists m. split; [exact E|]. intro x. rewrite K. cbn [rule_of]. rewrite M.
      destruct (in_dec Nat.eq_dec x xs), (in_dec Nat.eq_dec x (y :: xs)) as [I|I]; auto.
      * exfalso. apply I. right; auto.
      * destruct I as [<-|I]; [|tauto]. rewrite Nat.eqb_refl. reflexivity.
      * destruct (Nat.eqb_spec x y); auto. exfalso. apply I. left; auto.
Qed.

(** A step that the precondition of [reffect] allows. *)
Definition clean_at (o : rop) (c : ringmap) : Prop :=
  match o with
  | AddR _ r => ring_ok r /\ (c (rg_id r) = None -> forall id x, c id = Some x -> ~ share_rule r x)
  | RemR _ _ => True
  end.

Lemma rstep_post o b : rinv b -> clean_at o (content b) ->
  match rstep o b with (b', ok) => rinv b' /\ reffect o (content b) (content b') ok end.
Proof.
  intros I C. destruct o as [pick r|pick id]; cbn [rstep].
  - destruct C as [R C]. unfold AddPhaseRing, act_seq, put_ring.
    pose proof (memplace_spec Nat.eqb nat_eqb_ok (rg_id r) r (rings b)) as M.
    destruct (memplace Nat.eqb (rg_id r) r (rings b)) as [m|].
    + destruct M as (M1 & M2 & M3). specialize (C M1). destruct (begin_nodup pick r R) as [Na Nb].
      destruct (put_rows (rg_id r) (map fst (ph_row (begin_phase pick r))) (mk_rbook m (row_of b) (rule_of b)) Na) as (mr & E1 & H1).
      { intros x Hx. cbn [row_of]. destruct (mfind Nat.eqb x (row_of b)) as [id|] eqn:E; auto. exfalso.
        apply (ri_row b I) in E. destruct E as (q & Q1 & Q2). apply (C id q Q1). left. exists x. split; auto.
        apply (begin_row pick); auto. }
      rewrite E1. cbn [row_of rule_of rings] in *.
      destruct (put_rules (rg_id r) (map fst (ph_disc (begin_phase pick r))) (mk_rbook m mr (rule_of b)) Nb) as (md & E2 & H2).
      { intros x Hx. cbn [rule_of]. destruct (mfind Nat.eqb x (rule_of b)) as [id|] eqn:E; auto. exfalso.
        apply (ri_rule b I) in E. destruct E as (q & Q1 & Q2). apply (C id q Q1). right. exists x. split; auto.
        apply (begin_rule pick); auto. }
      rewrite E2. cbn [row_of rule_of rings] in *.
      assert (Cn : forall id, content (mk_rbook m mr md) id = if Nat.eqb id (rg_id r) then Some r else content b id)
        by (intro id; unfold content; cbn [rings]; apply M3).
      split; [constructor|].
      * intros id x H. rewrite Cn in H. destruct (Nat.eqb_spec id (rg_id r)).
        -- inversion H; subst; auto.
        -- apply (ri_id b I); auto.
      * subst m. cbn [rings]. apply NoDup_snoc_keys; auto. apply (ri_keys b I).
      * intros x id. cbn [row_of]. rewrite H1. destruct (in_dec Nat.eq_dec x (map fst (ph_row (begin_phase pick r)))) as [J|J].
        -- apply (begin_row pick r x R) in J. split.
           ++ intro H; inversion H; subst. exists r. rewrite Cn, Nat.eqb_refl. auto.
           ++ intros (q & Q1 & Q2). rewrite Cn in Q1. destruct (Nat.eqb_spec id (rg_id r)); [congruence|]. exfalso.
              apply (C id q Q1). left. eauto.
        -- rewrite (ri_row b I). split; intros (q & Q1 & Q2); exists q; rewrite Cn in *.
           ++ destruct (Nat.eqb_spec id (rg_id r)); auto. exfalso. subst. unfold content in Q1. congruence.
           ++ destruct (Nat.eqb_spec id (rg_id r)); auto. exfalso. inversion Q1; subst. apply J. apply (begin_row pick); auto.
      * intros x id. cbn [rule_of]. rewrite H2. destruct (in_dec Nat.eq_dec x (map fst (ph_disc (begin_phase pick r)))) as [J|J].
        -- apply (begin_rule pick r x R) in J. split.
           ++ intro H; inversion H; subst. exists r. rewrite Cn, Nat.eqb_refl. auto.
           ++ intros (q & Q1 & Q2). rewrite Cn in Q1. destruct (Nat.eqb_spec id (rg_id r)); [congruence|]. exfalso.
              apply (C id q Q1). right. eauto.
        -- rewrite (ri_rule b I). split; intros (q & Q1 & Q2); exists q; rewrite Cn in *.
           ++ destruct (Nat.eqb_spec id (rg_id r)); auto. exfalso. subst. unfold content in Q1. congruence.
           ++ destruct (Nat.eqb_spec id (rg_id r)); auto. exfalso. inversion Q1; subst. apply J. apply (begin_rule pick); auto.
      * apply re_add; auto.
    + destruct M as [x M]. split; auto. apply (re_dup _ _ x); auto.
  - unfold RemovePhaseRing. destruct (mfind Nat.eqb id (rings b)) as [r|] eqn:F.
    + destruct (ri_id b I id r F) as [Hid R]. destruct (begin_nodup pick r R) as [Na Nb].
      unfold act_seq, act_do.
      set (m := merase Nat.eqb id (rings b)).
      destruct (drop_rows (map fst (ph_row (begin_phase pick r))) (mk_rbook m (row_of b) (rule_of b)) Na) as (mr & E1 & H1).
      { intros x Hx. cbn [row_of]. apply (begin_row pick r x R) in Hx.
        assert (K : mfind Nat.eqb x (row_of b) = Some id) by (apply (ri_row b I); eauto). congruence. }
      rewrite E1. cbn [row_of rule_of rings] in *.
      destruct (drop_rules (map fst (ph_disc (begin_phase pick r))) (mk_rbook m mr (rule_of b)) Nb) as (md & E2 & H2).
      { intros x Hx. cbn [rule_of]. apply (begin_rule pick r x R) in Hx.
        assert (K : mfind Nat.eqb x (rule_of b) = Some id) by (apply (ri_rule b I); eauto). congruence. }
      rewrite E2. cbn [row_of rule_of rings] in *.
      assert (Cn : forall i, content (mk_rbook m mr md) i = if Nat.eqb i id then None else content b i).
      { intro i. unfold content, m; cbn [rings]. destruct (Nat.eqb_spec i id) as [->|D]; [apply mfind_erase_eq; apply nat_eqb_ok|].
        apply (mfind_erase_neq Nat.eqb nat_eqb_ok); auto. }
      split; [constructor|].
      * intros i x H. rewrite Cn in H. destruct (Nat.eqb i id); [discriminate|]. apply (ri_id b I); auto.
      * unfold m. cbn [rings]. apply merase_nodup. apply (ri_keys b I).
      * intros x i. cbn [row_of]. rewrite H1. destruct (in_dec Nat.eq_dec x (map fst (ph_row (begin_phase pick r)))) as [J|J].
        -- apply (begin_row pick r x R) in J. split; [discriminate|]. intros (q & Q1 & Q2). exfalso. rewrite Cn in Q1.
           destruct (Nat.eqb_spec i id); [discriminate|].
           assert (K1 : mfind Nat.eqb x (row_of b) = Some id) by (apply (ri_row b I); eauto).
           assert (K2 : mfind Nat.eqb x (row_of b) = Some i) by (apply (ri_row b I); eauto). congruence.
        -- rewrite (ri_row b I). split; intros (q & Q1 & Q2); exists q; rewrite Cn in *.
           ++ destruct (Nat.eqb_spec i id); auto. exfalso. subst. unfold content in Q1. apply J. apply (begin_row pick r x R). congruence.
           ++ destruct (Nat.eqb_spec i id); [discriminate|]; auto.
      * intros x i. cbn [rule_of]. rewrite H2. destruct (in_dec Nat.eq_dec x (map fst (ph_disc (begin_phase pick r)))) as [J|J].
        -- apply (begin_rule pick r x R) in J. split; [discriminate|]. intros (q & Q1 & Q2). exfalso. rewrite Cn in Q1.
           destruct (Nat.eqb_spec i id); [discriminate|].
           assert (K1 : mfind Nat.eqb x (rule_of b) = Some id) by (apply (ri_rule b I); eauto).
           assert (K2 : mfind Nat.eqb x (rule_of b) = Some i) by (apply (ri_rule b I); eauto). congruence.
        -- rewrite (ri_rule b I). split; intros (q & Q1 & Q2); exists q; rewrite Cn in *.
           ++ destruct (Nat.eqb_spec i id); auto. exfalso. subst. unfold content in Q1. apply J. apply (begin_rule pick r x R). congruence.
           ++ destruct (Nat.eqb_spec i id); [discriminate|]; auto.
      * apply (re_rem _ _ r); auto.
    + split; auto. apply re_absent; auto.
Qed.

Lemma rinv_empty : rinv rb_empty.
Proof.
  constructor; cbn.
  - intros id r H; discriminate.
  - constructor.
  - intros x id. split; [discriminate|]. intros (r & H & _). discriminate.
  - intros x id. split; [discriminate|]. intros (r & H & _). discriminate.
Qed.

Lemma reffect_ext o c1 c2 d1 d2 k1 k2 : (forall i, c1 i = c2 i) -> reffect o c1 d1 k1 -> reffect o c2 d2 k2 ->
  k1 = k2 /\ forall i, d1 i = d2 i.
Proof.
  intros E H1 H2. destruct o as [p r|p id].
  - inversion H1 as [p1 r1 ? ? A B D|p1 r1 x ? ? A D| |]; subst;
      inversion H2 as [p2 r2 ? ? A' B' D'|p2 r2 x' ? ? A' D'| |]; subst; try (rewrite E in A; congruence);
      split; auto; intro i; rewrite D, D', E; reflexivity.
  - inversion H1 as [| |p1 r1 x ? ? A D|p1 r1 ? ? A D]; subst;
      inversion H2 as [| |p2 r2 x' ? ? A' D'|p2 r2 ? ? A' D']; subst; try (rewrite E in A; congruence);
      split; auto; intro i; rewrite D, D', E; reflexivity.
Qed.

Lemma reffect_clean o c d k : rop_ok o -> reffect o c d k -> clean_at o c.
Proof.
  intros R H. destruct o as [p r|p id]; cbn; auto. split; [exact R|].
  inversion H as [p1 r1 ? ? A B D|p1 r1 x ? ? A D| |]; subst; auto. intro; congruence.
Qed.

Lemma clean_at_ext o c d : (forall i, c i = d i) -> clean_at o c -> clean_at o d.
Proof.
  intros E. destruct o as [p r|p id]; cbn; auto. rewrite <- E. intros [H1 H2]; split; auto.
  intros H id x. rewrite <- E. apply H2. auto.
Qed.

Lemma rbook_run h c : (forall o, In o h -> rop_ok o) -> rreplay h c ->
  rinv (act_run rstep h rb_empty) /\ forall id, content (act_run rstep h rb_empty) id = c id.
Proof.
  intros R H. induction H as [|h o c c' ok H IH E].
  - split; [apply rinv_empty|]. reflexivity.
  - rewrite act_run_app. cbn [act_run]. destruct IH as [I J]; [intros; apply R; apply in_or_app; auto|].
    assert (Ro : rop_ok o) by (apply R; apply in_or_app; right; left; auto).
    assert (C : clean_at o (content (act_run rstep h rb_empty))).
    { apply (clean_at_ext o c); [intro; symmetry; apply J|]. apply (reffect_clean _ _ _ _ Ro E). }
    pose proof (rstep_post o _ I C) as P. destruct (rstep o (act_run rstep h rb_empty)) as [b' ok'].
    destruct P as [P1 P2]. cbn [fst]. split; auto. intro id. symmetry.
    apply (proj2 (reffect_ext _ _ _ _ _ _ _ (fun i => eq_sym (J i)) E P2)).
Qed.

Lemma rbook_returns h o c c' ok : (forall o', In o' (h ++ [o]) -> rop_ok o') -> rreplay h c -> reffect o c c' ok ->
  snd (rstep o (act_run rstep h rb_empty)) = ok.
Proof.
  intros R H E. destruct (rbook_run h c) as [I J]; auto. { intros; apply R; apply in_or_app; auto. }
  assert (Ro : rop_ok o) by (apply R; apply in_or_app; right; left; auto).
  assert (C : clean_at o (content (act_run rstep h rb_empty))).
  { apply (clean_at_ext o c); [intro; symmetry; apply J|]. apply (reffect_clean _ _ _ _ Ro E). }
  pose proof (rstep_post o _ I C) as P. destruct (rstep o (act_run rstep h rb_empty)) as [b' ok'].
  destruct P as [P1 P2]. cbn [snd]. symmetry.
  exact (proj1 (reffect_ext _ _ _ _ _ _ _ (fun i => eq_sym (J i)) E P2)).
Qed.

Lemma find_row_ok b x : rinv b ->
  match FindPhaseRingRow b x with
  | Ok (Some r) => content b (rg_id r) = Some r /\ covers_row r x
  | Ok None => forall id r, content b id = Some r -> ~ covers_row r x
  | _ => False
  end.
Proof.
  intro I. unfold FindPhaseRingRow, find_in. destruct (mfind Nat.eqb x (row_of b)) as [id|] eqn:E.
  - apply (ri_row b I) in E. destruct E as (r & R1 & R2). unfold content in R1. rewrite R1.
    destruct (ri_id b I id r R1) as [Q _]. unfold content. rewrite Q. auto.
  - intros id r H C. assert (K : mfind Nat.eqb x (row_of b) = Some id) by (apply (ri_row b I); eauto). congruence.
Qed.
Lemma find_rule_ok b x : rinv b ->
  match FindPhaseRingRule b x with
  | Ok (Some r) => content b (rg_id r) = Some r /\ covers_rule r x
  | Ok None => forall id r, content b id = Some r -> ~ covers_rule r x
  | _ => False
  end.
Proof.
  intro I. unfold FindPhaseRingRule, find_in. destruct (mfind Nat.eqb x (rule_of b)) as [id|] eqn:E.
  - apply (ri_rule b I) in E. destruct E as (r & R1 & R2). unfold content in R1. rewrite R1.
    destruct (ri_id b I id r R1) as [Q _]. unfold content. rewrite Q. auto.
  - intros id r H C. assert (K : mfind Nat.eqb x (rule_of b) = Some id) by (apply (ri_rule b I); eauto). congruence.
Qed.

Lemma find_row_iff b x r : rinv b -> (FindPhaseRingRow b x = Ok (Some r) <-> content b (rg_id r) = Some r /\ covers_row r x).
Proof.
  intro I. pose proof (find_row_ok b x I) as F. destruct (FindPhaseRingRow b x) as [[q|]| |]; try (destruct F; fail).
  - destruct F as [F1 F2]. split; [intro E; inversion E; subst; auto|]. intros [H1 H2]. f_equal. f_equal.
    assert (K1 : mfind Nat.eqb x (row_of b) = Some (rg_id q)) by (apply (ri_row b I); eauto).
    assert (K2 : mfind Nat.eqb x (row_of b) = Some (rg_id r)) by (apply (ri_row b I); eauto).
    assert (rg_id q = rg_id r) as Q by congruence. rewrite Q in F1. congruence.
  - split; [discriminate|]. intros [H1 H2]. destruct (F _ _ H1 H2).
Qed.
Lemma find_rule_iff b x r : rinv b -> (FindPhaseRingRule b x = Ok (Some r) <-> content b (rg_id r) = Some r /\ covers_rule r x).
Proof.
  intro I. pose proof (find_rule_ok b x I) as F. destruct (FindPhaseRingRule b x) as [[q|]| |]; try (destruct F; fail).
  - destruct F as [F1 F2]. split; [intro E; inversion E; subst; auto|]. intros [H1 H2]. f_equal. f_equal.
    assert (K1 : mfind Nat.eqb x (rule_of b) = Some (rg_id q)) by (apply (ri_rule b I); eauto).
    assert (K2 : mfind Nat.eqb x (rule_of b) = Some (rg_id r)) by (apply (ri_rule b I); eauto).
    assert (rg_id q = rg_id r) as Q by congruence. rewrite Q in F1. congruence.
  - split; [discriminate|]. intros [H1 H2]. destruct (F _ _ H1 H2).
Qed.

(** ** Providers *)
Definition shown (p : option presult) : option (nat * option (nat * option Q)) :=
  option_map (fun r => (p_state r, p_next r)) p.

Lemma pstep_spec o m : match pstep o m with (m', ok) =>
    (ok = true <-> ~ pop_bad o /\ match o with AddP i _ _ _ => ProviderGetPhase m i = None | SetP i _ _ _ => ProviderGetPhase m i <> None end) /\
    (forall id, shown (ProviderGetPhase m' id) = if ok && Nat.eqb (pop_ring o) id then Some (pop_value o) else shown (ProviderGetPhase m id)) /\
    (ok = false -> m' = m)
  end.
Proof.
  unfold ProviderGetPhase. destruct o as [i p n d|i p n d]; cbn [pstep pop_ring pop_value pop_bad].
  - unfold AddRing, act_seq, act_check. destruct (duration_ok n d) eqn:D.
    + assert (B : ~ (n = None /\ d <> None)) by (destruct n, d; cbn in D; try discriminate; intros [? ?]; congruence).
      pose proof (memplace_spec Nat.eqb nat_eqb_ok i (mk_presult p (compute_next n d)) m) as M.
      destruct (memplace Nat.eqb i (mk_presult p (compute_next n d)) m) as [m'|].
      * destruct M as (M1 & _ & M3). split; [tauto|]. split; [|discriminate]. intro id. rewrite M3.
        rewrite (Nat.eqb_sym i id). cbn [andb]. destruct (Nat.eqb id i); [destruct n; reflexivity|reflexivity].
      * destruct M as [v M]. split; [|split; auto]. split; [discriminate|]. intros [_ H]; congruence.
    + split; [|split; auto]. split; [discriminate|]. intros [H _]. exfalso. apply H. destruct n, d; cbn in D; try discriminate. split; congruence.
  - unfold SetPhase, act_seq, act_check, act_do. destruct (duration_ok n d) eqn:D.
    + assert (B : ~ (n = None /\ d <> None)) by (destruct n, d; cbn in D; try discriminate; intros [? ?]; congruence).
      destruct (has i m) eqn:H.
      * split; [|split].
        -- apply mhas_true in H. destruct H as [v H]. rewrite H. split; auto. intros _. split; [exact B|discriminate].
        -- intro id. cbn [andb]. destruct (Nat.eqb_spec i id) as [->|N].
           ++ rewrite (mfind_set_eq Nat.eqb nat_eqb_ok). destruct n; reflexivity.
           ++ rewrite (mfind_set_neq Nat.eqb nat_eqb_ok); auto.
        -- discriminate.
      * apply mhas_false in H. rewrite H. split; [|split; auto]. split; [discriminate|tauto].
    + split; [|split; auto]. split; [discriminate|]. intros [H _]. exfalso. apply H. destruct n, d; cbn in D; try discriminate. split; congruence.
Qed.

(** The calls of a history with their outcomes. *)
Fixpoint ptrace (h : list pop) (m : provider) : list (pop * bool) :=
  match h with [] => [] | o :: h' => (o, snd (pstep o m)) :: ptrace h' (fst (pstep o m)) end.

Lemma provider_last h : forall m id, shown (ProviderGetPhase (act_run pstep h m) id) = last_written id (ptrace h m) (shown (ProviderGetPhase m id)).
Proof.
  induction h as [|o h IH]; intros m id; cbn [act_run ptrace last_written]; auto.
  rewrite IH. f_equal. pose proof (pstep_spec o m) as S. destruct (pstep o m) as [m' ok]. cbn [fst snd].
  destruct S as (_ & S & _). apply S.
Qed.

(** ** Phase driven providers *)
Lemma at_key_in {V} (m : list (nat * V)) k v : NoDup (keys m) -> (at_key m k = Ok v <-> In (k, v) m).
Proof.
  intro N. unfold at_key. destruct (mfind Nat.eqb k m) as [w|] eqn:E.
  - split; intro H; [inversion H; subst; apply (mfind_in Nat.eqb nat_eqb_ok); auto|].
    apply (mfind_nodup Nat.eqb nat_eqb_ok) in H; auto. congruence.
  - split; [discriminate|]. intro H. apply (mfind_nodup Nat.eqb nat_eqb_ok) in H; auto. congruence.
Qed.
Lemma at_key_has {V} (m : list (nat * V)) k : match at_key m k with Ok v => In (k, v) m | Throw => ~ In k (keys m) | UB => False end.
Proof.
  unfold at_key. destruct (mfind Nat.eqb k m) as [w|] eqn:E.
  - apply (mfind_in Nat.eqb nat_eqb_ok); auto.
  - apply (mfind_none Nat.eqb nat_eqb_ok) in E. exact E.
Qed.

Section State.
Variable sel : phase -> list (nat * nat).
Definition assigns (r : ring) (ph rule v : nat) : Prop := exists p, In (ph, p) (rg_phases r) /\ In (rule, v) (sel p).
Variable r : ring.
Variable x : nat.
Hypothesis R : ring_ok r.
Hypothesis N : forall p, In p (map snd (rg_phases r)) -> NoDup (keys (sel p)).
Hypothesis C : forall p, In p (map snd (rg_phases r)) -> In x (keys (sel p)).

Lemma state_at ph : has_phase r ph -> exists p v, at_key (rg_phases r) ph = Ok p /\ at_key (sel p) x = Ok v /\ assigns r ph x v.
Proof.
  intro H. pose proof (at_key_has (rg_phases r) ph) as A. destruct (at_key (rg_phases r) ph) as [p| |].
  - assert (P : In p (map snd (rg_phases r))) by (apply in_map_iff; exists (ph, p); auto).
    pose proof (at_key_has (sel p) x) as B. destruct (at_key (sel p) x) as [v| |] eqn:E.
    + exists p, v. repeat split; auto. exists p. auto.
    + exfalso. apply B. apply C. exact P.
    + destruct B.
  - exfalso. apply A. exact H.
  - destruct A.
Qed.

Lemma assigns_fun ph v w : assigns r ph x v -> assigns r ph x w -> v = w.
Proof.
  intros (p & A & B) (q & A' & B'). destruct R as (_ & K & _).
  apply (at_key_in _ _ _ K) in A. apply (at_key_in _ _ _ K) in A'.
  assert (E : p = q) by congruence. subst q.
  assert (P : In p (map snd (rg_phases r))).
  { apply (at_key_in _ _ _ K) in A. apply in_map_iff. exists (ph, p); auto. }
  apply (at_key_in _ _ _ (N p P)) in B. apply (at_key_in _ _ _ (N p P)) in B'. congruence.
Qed.

Lemma state_in_ok pr :
  (has_phase r (p_state pr) /\ (forall n d, p_next pr = Some (n, d) -> has_phase r n) ->
   exists s, state_in sel r x pr = Ok s /\ assigns r (p_state pr) x (p_state s) /\
     match p_next pr, p_next s with
     | None, None => True
     | Some (n, d), Some (nv, d') => d' = d /\ assigns r n x nv
     | _, _ => False
     end) /\
  (~ (has_phase r (p_state pr) /\ (forall n d, p_next pr = Some (n, d) -> has_phase r n)) -> state_in sel r x pr = Throw).
Proof.
  unfold state_in. destruct pr as [ph nx]. cbn [p_state p_next]. split.
  - intros [H1 H2]. destruct (state_at ph H1) as (p & v & A & B & S). rewrite A. cbn [obind]. rewrite B. cbn [obind].
    destruct nx as [[n d]|].
    + destruct (state_at n (H2 n d eq_refl)) as (p' & v' & A' & B' & S'). rewrite A'. cbn [obind]. rewrite B'. cbn [obind].
      eexists. split; [reflexivity|]. cbn [p_state p_next]. auto.
    + eexists. split; [reflexivity|]. cbn [p_state p_next]. auto.
  - intro H. destruct (in_dec Nat.eq_dec ph (keys (rg_phases r))) as [I|I].
    + destruct (state_at ph I) as (p & v & A & B & S). rewrite A. cbn [obind]. rewrite B. cbn [obind].
      destruct nx as [[n d]|]; [|exfalso; apply H; split; [exact I|intros; discriminate]].
      pose proof (at_key_has (rg_phases r) n) as K. destruct (at_key (rg_phases r) n) as [p'| |]; cbn [obind]; auto.
      * exfalso. apply H. split; [exact I|]. intros n' d' E. inversion E; subst. unfold has_phase, keys.
        apply in_map_iff. exists (n', p'). auto.
      * destruct K.
    + pose proof (at_key_has (rg_phases r) ph) as K. destruct (at_key (rg_phases r) ph) as [p'| |]; cbn [obind]; auto.
      * exfalso. apply I. unfold keys. apply in_map_iff. exists (ph, p'). auto.
      * destruct K.
Qed.
End State.

Lemma ring_row_facts r x : ring_ok r -> covers_row r x ->
  (forall p, In p (map snd (rg_phases r)) -> NoDup (keys (ph_row p))) /\ (forall p, In p (map snd (rg_phases r)) -> In x (keys (ph_row p))).
Proof.
  intros (_ & _ & M & S) (q & Q1 & Q2). split; intros p P.
  - apply in_map_iff in P. destruct P as ([i p'] & E & P). cbn in E. subst p'. destruct (M i p P) as (_ & M1 & M2 & _). assumption.
  - apply (proj1 (S q p Q1 P)). exact Q2.
Qed.
Lemma ring_rule_facts r x : ring_ok r -> covers_rule r x ->
  (forall p, In p (map snd (rg_phases r)) -> NoDup (keys (ph_disc p))) /\ (forall p, In p (map snd (rg_phases r)) -> In x (keys (ph_disc p))).
Proof.
  intros (_ & _ & M & S) (q & Q1 & Q2). split; intros p P.
  - apply in_map_iff in P. destruct P as ([i p'] & E & P). cbn in E. subst p'. destruct (M i p P) as (_ & M1 & M2 & _). assumption.
  - apply (proj2 (S q p Q1 P)). exact Q2.
Qed.

(** ** Default provider *)
Lemma default_entry_ok pick r : ring_ok r -> same_set (keys (rg_next r)) (keys (rg_phases r)) ->
  exists ph nx, default_entry pick r = Ok (Some (ph, nx)) /\ has_phase r ph /\
    exists ns, In (ph, ns) (rg_next r) /\ match ns with [] => nx = None | x :: _ => nx = Some x end.
Proof.
  intros R S. unfold default_entry. pose proof R as (Ne & _ & M & _).
  set (p := begin_phase (pick (rg_id r)) r).
  assert (P : In (ph_id p) (keys (rg_phases r))).
  { pose proof (begin_phase_in (pick (rg_id r)) r Ne) as B. apply in_map_iff in B. destruct B as ([i q] & E & B).
    cbn in E. subst q. destruct (M i _ B) as [K _]. unfold p. rewrite K. unfold keys. apply in_map_iff. eexists; split; [|exact B]. reflexivity. }
  pose proof (at_key_has (rg_next r) (ph_id p)) as A.
  destruct (rg_phases r) as [|e l] eqn:G; [congruence|].
  destruct (at_key (rg_next r) (ph_id p)) as [ns| |]; cbn [obind].
  - eexists. eexists. split; [reflexivity|].
    split; [unfold has_phase; rewrite G; exact P|]. exists ns. split; [exact A|]. destruct ns as [|[n d] ns]; reflexivity.
  - exfalso. apply A. apply S. exact P.
  - destruct A.
Qed.

Lemma default_loop_ok pick b : rinv b ->
  (forall id r, content b id = Some r -> same_set (keys (rg_next r)) (keys (rg_phases r))) ->
  forall ids m, NoDup ids -> (forall id, In id ids -> content b id <> None) -> (forall id, In id ids -> ProviderGetPhase m id = None) ->
  exists m', default_loop pick b ids m = Ok m' /\
    (forall id, ~ In id ids -> ProviderGetPhase m' id = ProviderGetPhase m id) /\
    (forall id r, In id ids -> content b id = Some r -> exists ph nx ns, ProviderGetPhase m' id = Some (mk_presult ph nx) /\ has_phase r ph /\
       In (ph, ns) (rg_next r) /\ match ns with [] => nx = None | x :: _ => nx = Some x end).
Proof.
  intros I S. induction ids as [|id ids IH]; intros m N F G; cbn [default_loop].
  - exists m. split; auto. split; auto. intros id r [].
  - inversion N as [|? ? N1 N2]; subst. unfold GetPhaseRing. destruct (mfind Nat.eqb id (rings b)) as [r|] eqn:E.
    2: { exfalso. apply (F id); [left; auto|exact E]. }
    destruct (ri_id b I id r E) as [_ R].
    destruct (default_entry_ok pick r R (S id r E)) as (ph & nx & D & P & ns & Ns1 & Ns2). rewrite D. cbn [obind].
    pose proof (pstep_spec (AddP id ph (option_map fst nx) (match nx with Some (_, d) => d | None => None end)) m) as Q.
    cbn [pstep] in Q. destruct (AddRing id ph (option_map fst nx) _ m) as [m1 ok] eqn:A. destruct Q as (Q1 & Q2 & _).
    assert (ok = true) as ->.
    { apply Q1. split; [|apply G; left; auto]. cbn [pop_bad]. destruct nx as [[n d]|]; cbn; intros [? ?]; congruence. }
    cbn [pop_ring andb] in Q2.
    assert (Q3 : forall i, ProviderGetPhase m1 i = if Nat.eqb id i then Some (mk_presult ph nx) else ProviderGetPhase m i).
    { intro i. specialize (Q2 i). destruct (Nat.eqb id i).
      - destruct (ProviderGetPhase m1 i) as [[s n]|]; cbn in Q2; [|discriminate]. inversion Q2; subst.
        destruct nx as [[n d]|]; reflexivity.
      - destruct (ProviderGetPhase m1 i) as [[s n]|], (ProviderGetPhase m i) as [[s' n']|]; cbn in Q2; congruence. }
    destruct (IH m1 N2) as (m' & L1 & L2 & L3).
    + intros i Hi. apply F. right; auto.
    + intros i Hi. rewrite Q3. destruct (Nat.eqb_spec id i); [subst; tauto|]. apply G. right; auto.
    + exists m'. split; auto. split.
      * intros i Hi. rewrite L2 by (intro; apply Hi; right; auto). rewrite Q3.
        destruct (Nat.eqb_spec id i); auto. exfalso. apply Hi. left; auto.
      * intros i q [->|Hi] Hq; [|apply L3; auto]. assert (q = r) by (unfold content in Hq; congruence). subst q.
        exists ph, nx, ns. rewrite L2 by assumption. rewrite Q3, Nat.eqb_refl. auto.
Qed.
