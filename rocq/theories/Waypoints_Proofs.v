From Coq Require Import List QArith Qabs Bool Arith Lqa Lia.
From Verif Require Import Base Regions_Model Positions_Model Positions_Proofs Waypoints_Model Waypoints_Spec.
Import ListNotations.
Open Scope Q_scope.

Lemma nQ_plus a b : nQ (a + b) == nQ a + nQ b.
Proof. unfold nQ. rewrite Nat2Z.inj_add, inject_Z_plus. reflexivity. Qed.

Lemma step_loop_ok fuel : forall acc to rate, 0 < rate -> to - acc < nQ fuel * rate ->
  exists l acc', step_loop fuel acc to rate = Ok (l, acc') /\
    acc' == acc + nQ (length l) * rate /\ to < acc' /\ (l <> [] -> acc' - rate <= to) /\
    (forall i y, nth_error l i = Some y -> y == acc + nQ i * rate /\ y <= to).
Proof.
  induction fuel as [|f IH]; intros acc to rate Hr Hf; cbn [step_loop].
  - change (nQ 0) with 0 in Hf. destruct (Qleb_spec acc to) as [L|L]; [lra|].
    exists [], acc. split; [reflexivity|]. change (nQ (length (@nil Q))) with 0.
    split; [lra|]. split; [lra|]. split; [congruence|]. intros [|i] y H; discriminate.
  - destruct (Qleb_spec acc to) as [L|L].
    + destruct (IH (acc + rate) to rate Hr) as (l & a' & E & A & B & C & D).
      { rewrite nQ_S in Hf. lra. }
      rewrite E. cbn [omap fst snd]. exists (acc :: l), a'. split; [reflexivity|].
      cbn [length]. rewrite nQ_S. split; [lra|]. split; [exact B|]. split.
      * intros _. destruct l as [|y l]; [|apply C; congruence].
        change (nQ (length (@nil Q))) with 0 in A. lra.
      * intros [|i] y H; cbn in H.
        -- inversion H; subst. change (nQ 0) with 0. lra.
        -- apply D in H. rewrite nQ_S. lra.
    + exists [], acc. split; [reflexivity|]. change (nQ (length (@nil Q))) with 0.
      split; [lra|]. split; [lra|]. split; [congruence|]. intros [|i] y H; discriminate.
Qed.

Lemma arc_app a b : arc (a ++ b) == arc a + arc b.
Proof. induction a as [|r a IH]; cbn [arc app]; [lra|]. rewrite IH. lra. Qed.

Lemma sample_ranges_outcome known rate rs : 0 < rate -> forall prev,
  sample_ranges known rate rs prev = Throw /\ existsb (fun r => negb (known (lane_id r))) rs = true \/
  (exists p, sample_ranges known rate rs prev = Ok p) /\ existsb (fun r => negb (known (lane_id r))) rs = false.
Proof.
  intro Hr. induction rs as [|r rs IH]; intro prev; cbn [sample_ranges existsb].
  - right. eauto.
  - destruct (known (lane_id r)) eqn:K; cbn [throw_unless negb orb]; [|left; auto].
    destruct (step_loop_ok (loop_fuel (prev + s0 (s_range r) + rate) (s1 (s_range r)) rate)
                (prev + s0 (s_range r) + rate) (s1 (s_range r)) rate Hr (loop_fuel_enough _ _ _ Hr))
      as (l & a' & E & _). rewrite E. cbn [obind fst snd].
    destruct (IH (a' - s1 (s_range r) - rate)) as [[-> H]|[(p & ->) H]]; cbn [obind]; [left|right]; eauto.
Qed.

Lemma sample_ranges_ok known rate : 0 < rate -> forall rs pre n prev p,
  forwards rs ->
  prev == nQ n * rate - arc pre -> nQ n * rate <= arc pre -> arc pre < nQ (S n) * rate ->
  sample_ranges known rate rs prev = Ok p ->
  let m := (n + length (fst p))%nat in
  snd p == nQ m * rate - arc (pre ++ rs) /\
  nQ m * rate <= arc (pre ++ rs) /\ arc (pre ++ rs) < nQ (S m) * rate /\
  (forall i w, nth_error (fst p) i = Some w -> on_route (pre ++ rs) (nQ (S n + i) * rate) w).
Proof.
  intro Hr. induction rs as [|r rs IH]; intros pre n prev p F P1 P2 P3 E; cbn [sample_ranges] in E.
  - inversion E; subst p. cbn [fst snd length]. rewrite app_nil_r, Nat.add_0_r.
    repeat split; auto. intros [|i] w H; discriminate.
  - unfold throw_unless in E. destruct (known (lane_id r)); [|discriminate].
    set (acc := prev + s0 (s_range r) + rate) in *.
    destruct (step_loop_ok (loop_fuel acc (s1 (s_range r)) rate) acc (s1 (s_range r)) rate Hr
                (loop_fuel_enough _ _ _ Hr)) as (l & a' & E1 & A & B & C & D).
    rewrite E1 in E. cbn [obind fst snd] in E.
    destruct (sample_ranges known rate rs (a' - s1 (s_range r) - rate)) as [q| |] eqn:E2; try discriminate.
    cbn [obind] in E. inversion E; subst p. clear E. cbn [fst snd].
    assert (Fr : s0 (s_range r) <= s1 (s_range r)) by (apply F; left; reflexivity).
    assert (R1 : arc (pre ++ [r]) == arc pre + (s1 (s_range r) - s0 (s_range r))).
    { rewrite arc_app. cbn [arc]. lra. }
    assert (N1 : nQ (S n) == nQ n + 1) by apply nQ_S.
    assert (N2 : nQ (n + length l) == nQ n + nQ (length l)) by apply nQ_plus.
    assert (N3 : nQ (S (n + length l)) == nQ (n + length l) + 1) by apply nQ_S.
    assert (A' : a' == prev + s0 (s_range r) + rate + nQ (length l) * rate) by exact A.
    assert (M1 : nQ (n + length l) * rate == nQ n * rate + nQ (length l) * rate) by (rewrite N2; ring).
    assert (M2 : nQ (S (n + length l)) * rate == nQ (n + length l) * rate + rate) by (rewrite N3; ring).
    destruct (IH (pre ++ [r]) (n + length l)%nat (a' - s1 (s_range r) - rate) q) as (I1 & I2 & I3 & I4); auto.
    + intros x Hx. apply F. right. exact Hx.
    + lra.
    + destruct l as [|y l].
      * change (nQ (length (@nil Q))) with 0 in *. lra.
      * assert (a' - rate <= s1 (s_range r)) by (apply C; congruence). lra.
    + lra.
    + rewrite <- app_assoc in I1, I2, I3, I4. cbn [app] in I1, I2, I3, I4.
      rewrite app_length, map_length, Nat.add_assoc. repeat split; auto.
      intros i w H. destruct (Nat.lt_ge_cases i (length l)) as [Hi|Hi].
      * rewrite nth_error_app1 in H by (rewrite map_length; exact Hi).
        rewrite nth_error_map in H. destruct (nth_error l i) as [y|] eqn:Ey; [|discriminate].
        cbn in H. inversion H; subst w. destruct (D i y Ey) as [D1 D2].
        assert (Ni : nQ (S n + i) == nQ n + 1 + nQ i) by (rewrite nQ_plus, nQ_S; reflexivity).
        assert (Mi : nQ (S n + i) * rate == nQ n * rate + rate + nQ i * rate) by (rewrite Ni; ring).
        assert (0 <= nQ i * rate) by (pose proof (nQ_nonneg i); nra).
        assert (M0 : nQ (S n) * rate == nQ n * rate + rate) by (rewrite N1; ring).
        exists pre, r, rs. cbn [fst snd]. unfold acc in D1. repeat split; try lra.
      * rewrite nth_error_app2 in H by (rewrite map_length; exact Hi). rewrite map_length in H.
        apply I4 in H. replace (S (n + length l) + (i - length l))%nat with (S n + i)%nat in H by lia. exact H.
Qed.

Lemma last_split {A} (l : list A) d : l <> [] -> exists pre, l = pre ++ [last l d].
Proof. intro H. exists (removelast l). apply app_removelast_last. exact H. Qed.

Lemma arc_nonneg rs : forwards rs -> 0 <= arc rs.
Proof.
  induction rs as [|r rs IH]; intro F; cbn [arc]; [lra|].
  assert (s0 (s_range r) <= s1 (s_range r)) by (apply F; left; reflexivity).
  assert (0 <= arc rs) by (apply IH; intros x Hx; apply F; right; exact Hx). lra.
Qed.

Lemma route_length_arc_aux rs : forwards rs -> forall a,
  fold_left (fun acc r => acc + size (s_range r)) rs a == a + arc rs.
Proof.
  induction rs as [|r rs IH]; intros F a; cbn [fold_left arc]; [lra|].
  rewrite IH by (intros x Hx; apply F; right; exact Hx).
  assert (s0 (s_range r) <= s1 (s_range r)) by (apply F; left; reflexivity).
  unfold size. rewrite Qabs_pos by lra. lra.
Qed.
Lemma route_length_arc rs : forwards rs -> route_length rs == arc rs.
Proof. intro F. unfold route_length. rewrite route_length_arc_aux by exact F. lra. Qed.

Lemma cmax_pos a b : 0 < a -> 0 < cmax a b.
Proof. unfold cmax. intro H. destruct (Qltb_spec a b); lra. Qed.

Lemma sample_outcome known tol rs rate_in : 0 < tol -> rs <> [] ->
  (exists w, SampleAheadWaypoints known tol rs rate_in = Ok w) /\ 0 < rate_in /\
    (forall r, In r rs -> known (lane_id r) = true) \/
  SampleAheadWaypoints known tol rs rate_in = Throw /\
    (rate_in <= 0 \/ exists r, In r rs /\ known (lane_id r) = false).
Proof.
  intros Ht Hn. unfold SampleAheadWaypoints, throw_unless.
  destruct (Qltb_spec 0 rate_in) as [Hr|Hr]; [|right; auto].
  set (rate := cmax tol (cmin rate_in (route_length rs))).
  assert (Hrate : 0 < rate) by (apply cmax_pos; exact Ht).
  destruct rs as [|f rs]; [congruence|]. set (all := f :: rs) in *.
  destruct (known (lane_id f)) eqn:K.
  2:{ right. split; [reflexivity|]. right. exists f. split; [left; reflexivity|exact K]. }
  destruct (sample_ranges_outcome known rate all Hrate 0) as [[-> H]|[(p & ->) H]]; cbn [obind].
  - right. split; [reflexivity|]. right. apply existsb_exists in H. destruct H as (r & H1 & H2).
    exists r. split; [exact H1|]. destruct (known (lane_id r)); [discriminate|reflexivity].
  - left. assert (G : forall r, In r all -> known (lane_id r) = true).
    { intros r Hin. destruct (known (lane_id r)) eqn:Kr; [reflexivity|].
      assert (X : existsb (fun r => negb (known (lane_id r))) all = true).
      { apply existsb_exists. exists r. rewrite Kr. auto. }
      congruence. }
    split; [|auto]. destruct (Qltb tol (Qabs (snd p))); eauto.
    rewrite G; eauto. destruct (last_split all f) as (pre & E); [congruence|].
    rewrite E at 2. apply in_or_app. right. left. reflexivity.
Qed.

Lemma rate_compat t r a b : a == b -> cmax t (cmin r a) == cmax t (cmin r b).
Proof.
  intro E. unfold cmax, cmin. destruct (Qltb_spec a r); destruct (Qltb_spec b r);
    repeat match goal with |- context [Qltb ?x ?y] => destruct (Qltb_spec x y) end; lra.
Qed.

Lemma sample_values known tol rs rate_in ws : 0 < tol -> forwards rs ->
  SampleAheadWaypoints known tol rs rate_in = Ok ws ->
  let rate := cmax tol (cmin rate_in (arc rs)) in
  exists n body tail,
    ws = body ++ tail /\ length body = S n /\
    nQ n * rate <= arc rs /\ arc rs < nQ (S n) * rate /\
    (forall i w, nth_error body i = Some w -> on_route rs (nQ i * rate) w) /\
    (tail = [] /\ arc rs - nQ n * rate <= tol \/
     exists w, tail = [w] /\ tol < arc rs - nQ n * rate /\ on_route rs (arc rs) w).
Proof.
  intros Ht F E rate. unfold SampleAheadWaypoints, throw_unless in E.
  destruct (Qltb_spec 0 rate_in) as [Hr|Hr]; [|discriminate].
  set (rate' := cmax tol (cmin rate_in (route_length rs))) in *.
  assert (ER : rate' == rate).
  { apply rate_compat. apply route_length_arc. exact F. }
  assert (Hrate' : 0 < rate') by (apply cmax_pos; exact Ht).
  destruct rs as [|f rs]; [discriminate|]. set (all := f :: rs) in *.
  destruct (known (lane_id f)); [|discriminate].
  destruct (sample_ranges known rate' all 0) as [p| |] eqn:E1; try discriminate. cbn [obind] in E.
  destruct (sample_ranges_ok known rate' Hrate' all [] 0%nat 0 p F) as (I1 & I2 & I3 & I4).
  { change (nQ 0) with 0. cbn [arc]. lra. }
  { change (nQ 0) with 0. cbn [arc]. lra. }
  { rewrite nQ_S. change (nQ 0) with 0. cbn [arc]. lra. }
  { exact E1. }
  cbn [app] in *. rewrite Nat.add_0_l in *. set (n := length (fst p)) in *.
  assert (K1 : nQ n * rate' == nQ n * rate) by (rewrite ER; reflexivity).
  assert (K2 : nQ (S n) * rate' == nQ (S n) * rate) by (rewrite ER; reflexivity).
  assert (Hf : s0 (s_range f) <= s1 (s_range f)) by (apply F; left; reflexivity).
  exists n, ((lane_id f, s0 (s_range f)) :: fst p).
  assert (Q1 : Qabs (snd p) == arc all - nQ n * rate).
  { rewrite Qabs_neg by lra. lra. }
  assert (B : forall i w, nth_error ((lane_id f, s0 (s_range f)) :: fst p) i = Some w -> on_route all (nQ i * rate) w).
  { intros [|i] w H; cbn in H.
    - inversion H; subst w. change (nQ 0) with 0. exists [], f, rs. cbn [fst snd arc]. repeat split; try lra.
    - apply I4 in H. destruct H as (pre & r & post & H1 & H2 & H3 & H4 & H5).
      exists pre, r, post. repeat split; auto.
      change (1 + i)%nat with (S i) in H5. rewrite ER in H5. exact H5. }
  destruct (Qltb_spec tol (Qabs (snd p))) as [T|T].
  - destruct (known (lane_id (last all f))); [|discriminate]. inversion E; subst ws.
    exists [(lane_id (last all f), s1 (s_range (last all f)))].
    split; [reflexivity|]. split; [reflexivity|]. split; [lra|]. split; [lra|]. split; [exact B|].
    right. eexists. split; [reflexivity|]. split; [lra|].
    destruct (last_split all f) as (pre & EL); [unfold all; congruence|].
    exists pre, (last all f), []. cbn [fst snd]. split; [exact EL|]. split; [reflexivity|].
    assert (s0 (s_range (last all f)) <= s1 (s_range (last all f))).
    { apply F. rewrite EL at 2. apply in_or_app. right. left. reflexivity. }
    repeat split; try lra. rewrite EL at 1. rewrite arc_app. cbn [arc]. lra.
  - inversion E; subst ws. exists []. rewrite app_nil_r.
    split; [reflexivity|]. split; [reflexivity|]. split; [lra|]. split; [lra|]. split; [exact B|].
    left. split; [reflexivity|]. lra.
Qed.
