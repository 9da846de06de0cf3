(** Proofs for C50: road meshes. *)
From Coq Require Import List QArith Qround Qabs Lqa Bool Arith ZArith Lia.
From Verif Require Import Base RoadMesh_Model RoadMesh_Spec.
Import ListNotations.
Local Open Scope Q_scope.

(** ** Fuel *)
Definition qn (k : nat) : Q := inject_Z (Z.of_nat k).
Lemma qn_S k : qn (S k) == qn k + 1.
Proof. unfold qn. rewrite Nat2Z.inj_succ. unfold Z.succ. rewrite inject_Z_plus. reflexivity. Qed.
Lemma qn_0 : qn 0 == 0.
Proof. reflexivity. Qed.
Lemma qn_nonneg k : 0 <= qn k.
Proof. unfold qn. change 0 with (inject_Z 0). rewrite <- Zle_Qle. lia. Qed.
Lemma steps_enough x g : 0 < g -> x + g <= qn (steps x g) * g.
Proof.
  intro G. unfold steps. rewrite qn_S. assert (X : x / g <= qn (Z.to_nat (Qceiling (x / g)))).
  { unfold qn. eapply Qle_trans; [apply Qle_ceiling|]. rewrite <- Zle_Qle. lia. }
  setoid_replace x with (x / g * g) at 1 by (field; lra). nra.
Qed.

(** ** ComputeSampleStep *)
Lemma step_loop_spec fuel l s0 grid best : 0 < grid -> s0 < length_ l -> (best == length_ l - s0 \/ grid <= best) -> 0 < best <= length_ l - s0 ->
  length_ l - s0 + grid <= best + qn fuel * grid -> 0 <= s0 ->
  exists r, step_loop fuel l s0 grid best = Ok r /\ best <= cmin r (length_ l - s0).
Proof.
  intros G L. revert best. induction fuel as [|fuel IH]; intros best C P F S0.
  - exfalso. rewrite qn_0 in F. lra.
  - cbn [step_loop]. set (pr := cmin (best * 2) (length_ l - s0)). destruct (deviates l grid s0 pr).
    + exists best. split; auto. unfold cmin. qcases; lra.
    + destruct (Qltb_spec (Qabs (s0 + pr - length_ l)) grid) as [H|H].
      * eexists. split; [reflexivity|]. unfold cmin, cmax in *. qcases; lra.
      * assert (E : pr == best * 2 /\ best * 2 < length_ l - s0).
        { subst pr. unfold cmin in *. destruct (Qltb_spec (length_ l - s0) (best * 2)).
          - exfalso. setoid_replace (s0 + (length_ l - s0) - length_ l) with 0 in H by ring. change (Qabs 0) with 0 in H. lra.
          - split; [reflexivity|]. destruct (Qlt_le_dec (best * 2) (length_ l - s0)); auto. exfalso. setoid_replace (s0 + best * 2 - length_ l) with 0 in H by lra. change (Qabs 0) with 0 in H. lra. }
        destruct E as [E1 E2]. rewrite qn_S in F. assert (Cg : grid <= best) by (destruct C; lra).
        destruct (IH pr) as (r & Er & Lr); [right; lra|split; lra|lra|auto|].
        exists r. split; auto. lra.
Qed.
Lemma sample_step_spec l s0 grid : 0 < grid -> 0 <= s0 < length_ l -> exists r, ComputeSampleStep l s0 grid = Ok r /\ cmin grid (length_ l - s0) <= r <= length_ l - s0.
Proof.
  intros G [S0 L]. unfold ComputeSampleStep. destruct (step_loop_spec (S (steps (length_ l) grid)) l s0 grid (cmin grid (length_ l - s0))) as (r & -> & Lr); auto.
  - unfold cmin. qcases; [left; lra|right; lra].
  - unfold cmin. qcases; lra.
  - rewrite qn_S. pose proof (steps_enough (length_ l) grid G). unfold cmin. qcases; lra.
  - cbn [omap]. eexists. split; [reflexivity|]. split; auto. apply cmin_r.
Qed.

(** ** Faces *)
Lemma in_quad s0 s1 a0 a1 b0 b1 (h0 h1 h2 h3 : Q) s r t : 0 <= t <= 1 -> s == between t s0 s1 -> between t a0 a1 <= r <= between t b0 b1 ->
  in_face [(s0, a0, h0); (s1, a1, h1); (s1, b1, h2); (s0, b0, h3)] s r.
Proof.
  intros T Es R. set (d := between t b0 b1 - between t a0 a1).
  assert (exists u, 0 <= u <= 1 /\ r == between t a0 a1 + u * d) as (u & U & Er).
  { destruct (Qlt_le_dec 0 d) as [D|D].
    - exists ((r - between t a0 a1) / d). split; [|field; lra]. split; [apply Qle_shift_div_l; subst d; lra|apply Qle_shift_div_r; subst d; lra].
    - exists 0. subst d. split; lra. }
  exists [(1 - t) * (1 - u); t * (1 - u); t * u; (1 - t) * u]. split.
  - repeat constructor; apply Qmult_le_0_compat; lra.
  - subst d. unfold between in *. split; [reflexivity|]. unfold s_of, r_of. cbn [total mean map fst snd]. split; [ring|]. split; [rewrite Es; ring|rewrite Er; ring].
Qed.
Lemma quad_swap a b c d s r : in_face [a; b; c; d] s r -> in_face [a; d; c; b] s r.
Proof.
  intros (ws & P & L & T & S0 & R). destruct ws as [|w0 [|w1 [|w2 [|w3 [|]]]]]; cbn in L; try discriminate. exists [w0; w3; w2; w1].
  inversion P as [|? ? P0 P']; inversion P' as [|? ? P1 P'']; inversion P'' as [|? ? P2 P3']; inversion P3' as [|? ? P3 _]; subst. split; [repeat constructor; auto|].
  unfold weighted. cbn [total mean map] in *. split; [reflexivity|]. split; [rewrite <- T; ring|]. split; [rewrite <- S0; ring|rewrite <- R; ring].
Qed.
Lemma in_triangles s0 s1 lo0 lo1 hi0 hi1 (h0 h1 h2 h3 h4 h5 : Q) s r t : 0 <= t <= 1 -> s == between t s0 s1 -> lo0 <= hi0 -> lo1 <= hi1 -> between t lo0 lo1 <= r <= between t hi0 hi1 ->
  in_face [(s0, hi0, h0); (s0, lo0, h1); (s1, hi1, h2)] s r \/ in_face [(s0, lo0, h3); (s1, lo1, h4); (s1, hi1, h5)] s r.
Proof.
  intros T Es W0 W1 R. unfold between in *. destruct (Qlt_le_dec r ((1 - t) * lo0 + t * hi1)) as [D|D].
  - right. assert (exists u, 0 <= u <= t /\ u * (hi1 - lo1) == r - (1 - t) * lo0 - t * lo1) as (u & U & Eu).
    { destruct (Qlt_le_dec 0 (hi1 - lo1)) as [P|P]; [|exfalso; assert (hi1 == lo1) as X by lra; rewrite X in D; lra].
      exists ((r - (1 - t) * lo0 - t * lo1) / (hi1 - lo1)). split; [|field; lra]. split; [apply Qle_shift_div_l; lra|apply Qle_shift_div_r; lra]. }
    exists [1 - t; t - u; u]. split; [repeat constructor; lra|]. split; [reflexivity|]. unfold s_of, r_of. cbn [total mean map fst snd]. split; [ring|]. split; [rewrite Es; ring|].
    setoid_replace ((1 - t) * lo0 + ((t - u) * lo1 + (u * hi1 + 0))) with ((1 - t) * lo0 + t * lo1 + u * (hi1 - lo1)) by ring. rewrite Eu. ring.
  - left. assert (exists u, 0 <= u <= 1 - t /\ u * (hi0 - lo0) == r - t * hi1 - (1 - t) * lo0) as (u & U & Eu).
    { destruct (Qlt_le_dec 0 (hi0 - lo0)) as [P|P]; [|exists 0; assert (hi0 == lo0) as X by lra; rewrite X in *; split; lra].
      exists ((r - t * hi1 - (1 - t) * lo0) / (hi0 - lo0)). split; [|field; lra]. split; [apply Qle_shift_div_l; lra|apply Qle_shift_div_r; lra]. }
    exists [u; 1 - t - u; t]. split; [repeat constructor; lra|]. split; [reflexivity|]. unfold s_of, r_of. cbn [total mean map fst snd]. split; [ring|]. split; [rewrite Es; ring|].
    setoid_replace (u * hi0 + ((1 - t - u) * lo0 + (t * hi1 + 0))) with (u * (hi0 - lo0) + (1 - t) * lo0 + t * hi1) by ring. rewrite Eu. ring.
Qed.
(** Inner points of a face are strictly between bounds of its vertices. *)
Lemma mean_above ws xs lo : Forall (fun w => 0 < w) ws -> length ws = length xs -> Forall (fun x => lo <= x) xs -> lo * total ws <= mean ws xs /\ (Exists (fun x => lo < x) xs -> lo * total ws < mean ws xs).
Proof.
  intro P. revert xs. induction P as [|w ws Pw P IH]; intros [|x xs] L F; try discriminate; cbn [total mean].
  - split; [lra|]. intro E. inversion E.
  - inversion F as [|? ? F1 F2]; subst. destruct (IH xs) as [I1 I2]; auto. assert (lo * w <= w * x) by nra. split; [lra|]. intro E. inversion E as [? ? E1|? ? E1]; subst; [assert (lo * w < w * x) by nra; lra|specialize (I2 E1); lra].
Qed.
Lemma mean_opp ws xs : mean ws (map Qopp xs) == - mean ws xs.
Proof. revert xs. induction ws as [|w ws IH]; intros [|x xs]; cbn; try reflexivity. rewrite IH. ring. Qed.
Lemma mean_below ws xs hi : Forall (fun w => 0 < w) ws -> length ws = length xs -> Forall (fun x => x <= hi) xs -> mean ws xs <= hi * total ws /\ (Exists (fun x => x < hi) xs -> mean ws xs < hi * total ws).
Proof.
  intros P L F. destruct (mean_above ws (map Qopp xs) (- hi) P) as [A B].
  - rewrite map_length. auto.
  - apply Forall_map. eapply Forall_impl; [|exact F]. cbn. intros. lra.
  - rewrite mean_opp in A. split; [lra|]. intro E. rewrite mean_opp in B. assert (Exists (fun x => - hi < x) (map Qopp xs)); [|specialize (B H); lra].
    clear - E. induction E; cbn; [left; lra|right; auto].
Qed.
Definition s_between (lo hi : Q) (f : face) : Prop := forall s r, inside_face f s r -> lo < s < hi.
Definition r_between (lo hi : Q) (f : face) : Prop := forall s r, inside_face f s r -> lo < r < hi.
Lemma s_between_intro lo hi f : Forall (fun v => lo <= s_of v <= hi) f -> Exists (fun v => lo < s_of v) f -> Exists (fun v => s_of v < hi) f -> s_between lo hi f.
Proof.
  intros F E1 E2 s r (ws & P & L & T & S0 & R). destruct (mean_above ws (map s_of f) lo P) as [_ A]; [rewrite map_length; auto|apply Forall_map; eapply Forall_impl; [|exact F]; cbn; tauto|].
  destruct (mean_below ws (map s_of f) hi P) as [_ B]; [rewrite map_length; auto|apply Forall_map; eapply Forall_impl; [|exact F]; cbn; tauto|].
  rewrite T, S0 in *. apply (Exists_map s_of (fun x => lo < x)) in E1. apply (Exists_map s_of (fun x => x < hi)) in E2. specialize (A E1). specialize (B E2). lra.
Qed.
Lemma r_between_intro lo hi f : Forall (fun v => lo <= r_of v <= hi) f -> Exists (fun v => lo < r_of v) f -> Exists (fun v => r_of v < hi) f -> r_between lo hi f.
Proof.
  intros F E1 E2 s r (ws & P & L & T & S0 & R). destruct (mean_above ws (map r_of f) lo P) as [_ A]; [rewrite map_length; auto|apply Forall_map; eapply Forall_impl; [|exact F]; cbn; tauto|].
  destruct (mean_below ws (map r_of f) hi P) as [_ B]; [rewrite map_length; auto|apply Forall_map; eapply Forall_impl; [|exact F]; cbn; tauto|].
  rewrite T, R in *. apply (Exists_map r_of (fun x => lo < x)) in E1. apply (Exists_map r_of (fun x => x < hi)) in E2. specialize (A E1). specialize (B E2). lra.
Qed.
Lemma pairs_app {A} (R : A -> A -> Prop) l m : ForallOrdPairs R l -> ForallOrdPairs R m -> (forall x y, In x l -> In y m -> R x y) -> ForallOrdPairs R (l ++ m).
Proof.
  intros H M X. induction H as [|x l F H IH]; cbn; auto. constructor; [|apply IH; intros; apply X; auto; right; auto].
  rewrite Forall_forall in *. intros y I. apply in_app_iff in I. destruct I as [I|I]; auto. apply X; auto. left. auto.
Qed.

(** ** The precise mesh *)
Section Precise.
Variable elevation : Q -> Q -> Q.
Variable grid : Q.
Variable G : 0 < grid.
Definition strip_face (s0 s1 lo0 lo1 hi0 hi1 : Q) (f : face) : Prop := s_between s0 s1 f /\
  forall v, In v f -> h_of v = elevation (s_of v) (r_of v) /\ (s_of v = s0 /\ lo0 <= r_of v <= hi0 \/ s_of v = s1 /\ lo1 <= r_of v <= hi1).
(** The cells above [k] on the left side. *)
Lemma left_loop_spec fuel s0 s1 max0 max1 : s0 < s1 -> forall k, 0 <= k -> max0 <= k + qn fuel * grid ->
  exists fs, left_loop fuel grid elevation s0 s1 max0 max1 k k = Ok fs /\
  (forall f, In f fs -> strip_face s0 s1 0 0 max0 max1 f /\ (exists hi, r_between k hi f)) /\ no_overlap fs /\
  (forall t s r, 0 <= t <= 1 -> s == between t s0 s1 -> k <= r -> r <= max0 -> r <= max1 -> (exists f, In f fs /\ in_face f s r) \/ (fs = [] /\ r == k /\ (max0 == k \/ max1 == k))).
Proof.
  intro L. induction fuel as [|fuel IH]; intros k K F.
  - rewrite qn_0 in F. unfold left_loop. destruct (Qltb_spec k max0); [lra|]. cbn [andb]. exists []. split; auto. split; [intros f []|]. split; [constructor|]. intros t s r T Es R0 R1 R2. right. split; auto. split; [lra|left; lra].
  - cbn [left_loop]. destruct (Qltb_spec k max0) as [H0|H0]; cbn [andb]; [destruct (Qltb_spec k max1) as [H1|H1]|].
    + rewrite qn_S in F. destruct (IH (k + grid)) as (fs & -> & P & N & C); [lra|lra|]. cbn [obind].
      set (f0 := [vertex elevation s0 k; vertex elevation s1 k; vertex elevation s1 (cmin (k + grid) max1); vertex elevation s0 (cmin (k + grid) max0)]).
      assert (B0 : k < cmin (k + grid) max0 /\ cmin (k + grid) max0 <= k + grid /\ cmin (k + grid) max0 <= max0) by (unfold cmin; qcases; lra).
      assert (B1 : k < cmin (k + grid) max1 /\ cmin (k + grid) max1 <= k + grid /\ cmin (k + grid) max1 <= max1) by (unfold cmin; qcases; lra).
      assert (R : r_between k (k + grid) f0).
      { apply r_between_intro; unfold f0, vertex, r_of; cbn [fst snd]; [repeat constructor; cbn; lra|right; right; left; cbn; lra|left; cbn; lra]. }
      exists (f0 :: fs). split; auto. split; [|split].
      * intros f [<-|I].
        -- split; [|exists (k + grid); auto]. split; [apply s_between_intro; unfold f0, vertex, s_of; cbn [fst snd]; [repeat constructor; cbn; lra|right; left; cbn; lra|left; cbn; lra]|].
           intros v I. unfold f0, vertex in I. cbn in I. destruct I as [<-|[<-|[<-|[<-|[]]]]]; unfold h_of, s_of, r_of; cbn [fst snd]; (split; [reflexivity|]); [left|right|right|left]; (split; [reflexivity|]); lra.
        -- destruct (P f I) as [Q1 (hi & Q2)]. split; auto. exists hi. intros s r X. specialize (Q2 s r X). lra.
      * constructor; auto. apply Forall_forall. intros g I s r X Y. destruct (P g I) as [_ (hi & Q2)]. specialize (R s r X). specialize (Q2 s r Y). lra.
      * intros t s r T Es R0 R1 R2. left. destruct (Qlt_le_dec (k + grid) r) as [D|D].
        -- destruct (C t s r T Es) as [(f & I & X)|(_ & E & _)]; [lra|lra|lra| |lra]. exists f. split; auto. right. auto.
        -- exists f0. split; [left; auto|]. apply in_quad with t; auto. unfold between.
           assert (X0 : r <= cmin (k + grid) max0) by (unfold cmin; qcases; lra). assert (X1 : r <= cmin (k + grid) max1) by (unfold cmin; qcases; lra). split; [lra|]. nra.
    + exists []. split; auto. split; [intros f []|]. split; [constructor|]. intros t s r T Es R0 R1 R2. right. split; auto. split; [lra|right; lra].
    + exists []. split; auto. split; [intros f []|]. split; [constructor|]. intros t s r T Es R0 R1 R2. right. split; auto. split; [lra|left; lra].
Qed.
(** The cells below [k] on the right side. *)
Lemma right_loop_spec fuel s0 s1 min0 min1 : s0 < s1 -> forall k, k <= 0 -> k - qn fuel * grid <= min0 ->
  exists fs, right_loop fuel grid elevation s0 s1 min0 min1 k k = Ok fs /\
  (forall f, In f fs -> strip_face s0 s1 min0 min1 0 0 f /\ (exists lo, r_between lo k f)) /\ no_overlap fs /\
  (forall t s r, 0 <= t <= 1 -> s == between t s0 s1 -> r <= k -> min0 <= r -> min1 <= r -> (exists f, In f fs /\ in_face f s r) \/ (fs = [] /\ r == k /\ (min0 == k \/ min1 == k))).
Proof.
  intro L. induction fuel as [|fuel IH]; intros k K F.
  - rewrite qn_0 in F. unfold right_loop. destruct (Qltb_spec min0 k); [lra|]. cbn [andb]. exists []. split; auto. split; [intros f []|]. split; [constructor|]. intros t s r T Es R0 R1 R2. right. split; auto. split; [lra|left; lra].
  - cbn [right_loop]. destruct (Qltb_spec min0 k) as [H0|H0]; cbn [andb]; [destruct (Qltb_spec min1 k) as [H1|H1]|].
    + rewrite qn_S in F. destruct (IH (k - grid)) as (fs & -> & P & N & C); [lra|lra|]. cbn [obind].
      set (f0 := [vertex elevation s0 k; vertex elevation s0 (cmax (k - grid) min0); vertex elevation s1 (cmax (k - grid) min1); vertex elevation s1 k]).
      assert (B0 : cmax (k - grid) min0 < k /\ k - grid <= cmax (k - grid) min0 /\ min0 <= cmax (k - grid) min0) by (unfold cmax; qcases; lra).
      assert (B1 : cmax (k - grid) min1 < k /\ k - grid <= cmax (k - grid) min1 /\ min1 <= cmax (k - grid) min1) by (unfold cmax; qcases; lra).
      assert (R : r_between (k - grid) k f0).
      { apply r_between_intro; unfold f0, vertex, r_of; cbn [fst snd]; [repeat constructor; cbn; lra|left; cbn; lra|right; left; cbn; lra]. }
      exists (f0 :: fs). split; auto. split; [|split].
      * intros f [<-|I].
        -- split; [|exists (k - grid); auto]. split; [apply s_between_intro; unfold f0, vertex, s_of; cbn [fst snd]; [repeat constructor; cbn; lra|right; right; left; cbn; lra|left; cbn; lra]|].
           intros v I. unfold f0, vertex in I. cbn in I. destruct I as [<-|[<-|[<-|[<-|[]]]]]; unfold h_of, s_of, r_of; cbn [fst snd]; (split; [reflexivity|]); [left|left|right|right]; (split; [reflexivity|]); lra.
        -- destruct (P f I) as [Q1 (lo & Q2)]. split; auto. exists lo. intros s r X. specialize (Q2 s r X). lra.
      * constructor; auto. apply Forall_forall. intros g I s r X Y. destruct (P g I) as [_ (lo & Q2)]. specialize (R s r X). specialize (Q2 s r Y). lra.
      * intros t s r T Es R0 R1 R2. left. destruct (Qlt_le_dec r (k - grid)) as [D|D].
        -- destruct (C t s r T Es) as [(f & I & X)|(_ & E & _)]; [lra|lra|lra| |lra]. exists f. split; auto. right. auto.
        -- exists f0. split; [left; auto|]. assert (X0 : cmax (k - grid) min0 <= r) by (unfold cmax; qcases; lra). assert (X1 : cmax (k - grid) min1 <= r) by (unfold cmax; qcases; lra).
           set (m0 := cmax (k - grid) min0) in *. set (m1 := cmax (k - grid) min1) in *.
           assert (Y : in_face [vertex elevation s0 m0; vertex elevation s1 m1; vertex elevation s1 k; vertex elevation s0 k] s r) by (apply in_quad with t; auto; unfold between; split; nra).
           clear - Y. destruct Y as (ws & P & Lw & T & S0 & R). destruct ws as [|w0 [|w1 [|w2 [|w3 [|]]]]]; cbn in Lw; try discriminate.
           exists [w3; w0; w1; w2]. inversion P as [|? ? P0 P']; inversion P' as [|? ? P1 P'']; inversion P'' as [|? ? P2 P3']; inversion P3' as [|? ? P3 _]; subst. split; [repeat constructor; auto|].
           unfold weighted, f0. cbn [total mean map] in *. split; [reflexivity|]. split; [rewrite <- T; ring|]. split; [rewrite <- S0; ring|rewrite <- R; ring].
    + exists []. split; auto. split; [intros f []|]. split; [constructor|]. intros t s r T Es R0 R1 R2. right. split; auto. split; [lra|right; lra].
    + exists []. split; auto. split; [intros f []|]. split; [constructor|]. intros t s r T Es R0 R1 R2. right. split; auto. split; [lra|left; lra].
Qed.

Variable l : lane.
Variable tol : Q.
Variable Tol : 0 <= tol.
Variable seg : bool.
Variable B : proper (bounds l seg).
Definition face_ok (from : Q) (f : face) : Prop := s_between from (length_ l) f /\
  forall v, In v f -> h_of v = elevation (s_of v) (r_of v) /\ from <= s_of v <= length_ l /\ rmin (bounds l seg (s_of v)) <= r_of v <= rmax (bounds l seg (s_of v)).
Lemma next_s_spec s0 : s0 < length_ l -> s0 < next_s l tol grid s0 <= length_ l /\ next_s l tol grid s0 <= s0 + grid + tol /\ (next_s l tol grid s0 == length_ l \/ s0 + grid <= next_s l tol grid s0).
Proof. intro H. unfold next_s. qcases; repeat split; lra. Qed.
Lemma fraction a b s : a < b -> a <= s <= b -> exists t, 0 <= t <= 1 /\ s == between t a b.
Proof. intros L H. exists ((s - a) / (b - a)). split; [split; [apply Qle_shift_div_l|apply Qle_shift_div_r]; lra|unfold between; field; lra]. Qed.
Lemma near_station s s' a b : a <= s <= b -> a <= s' <= b -> b - a <= grid + tol -> Qabs (s' - s) <= grid + tol.
Proof. intros. apply Qabs_Qle_condition. lra. Qed.
Lemma precise_loop_spec fuel : forall s0, 0 <= s0 -> length_ l <= s0 + qn fuel * grid ->
  exists fs, precise_loop fuel l tol grid seg elevation s0 = Ok fs /\ (forall f, In f fs -> face_ok s0 f) /\ no_overlap fs /\
  (forall s r, s0 <= s <= length_ l -> s0 < length_ l -> clear_of (bounds l seg) (length_ l) (grid + tol) s r -> exists f, In f fs /\ in_face f s r).
Proof.
  induction fuel as [|fuel IH]; intros s0 S0 F.
  - rewrite qn_0 in F. cbn [precise_loop]. destruct (Qltb_spec s0 (length_ l)); [lra|]. exists []. split; auto. split; [intros f []|]. split; [constructor|]. intros. lra.
  - cbn [precise_loop]. destruct (Qltb_spec s0 (length_ l)) as [H|H]; [|exists []; split; auto; split; [intros f []|]; split; [constructor|]; intros; lra].
    set (s1 := next_s l tol grid s0). destruct (next_s_spec s0 H) as ([N0 N1] & N2 & N3). fold s1 in N0, N1, N2, N3. pose proof B as B1. unfold proper in B1.
    pose proof (B1 s0) as B00. pose proof (B1 s1) as B01.
    destruct (left_loop_spec (steps (rmax (bounds l seg s0)) grid) s0 s1 (rmax (bounds l seg s0)) (rmax (bounds l seg s1)) N0 0) as (fl & -> & Pl & Nl & Cl); [lra|pose proof (steps_enough (rmax (bounds l seg s0)) grid G); lra|]. cbn [obind].
    destruct (right_loop_spec (steps (- rmin (bounds l seg s0)) grid) s0 s1 (rmin (bounds l seg s0)) (rmin (bounds l seg s1)) N0 0) as (fr & -> & Pr & Nr & Cr); [lra|pose proof (steps_enough (- rmin (bounds l seg s0)) grid G); lra|]. cbn [obind].
    rewrite qn_S in F. destruct (IH s1) as (fs & -> & P & N & C); [lra|pose proof (qn_nonneg fuel); destruct N3; nra|]. cbn [obind].
    assert (Ok0 : forall f lo0 lo1 hi0 hi1, strip_face s0 s1 lo0 lo1 hi0 hi1 f -> rmin (bounds l seg s0) <= lo0 -> rmin (bounds l seg s1) <= lo1 -> hi0 <= rmax (bounds l seg s0) -> hi1 <= rmax (bounds l seg s1) -> face_ok s0 f).
    { intros f lo0 lo1 hi0 hi1 [X Y] A1 A2 A3 A4. split; [intros s r I; specialize (X s r I); lra|]. intros v I. destruct (Y v I) as [Z [[E R]|[E R]]]; (split; [auto|]); rewrite E; split; lra. }
    exists (fl ++ fr ++ fs). split; auto. split; [|split].
    + intros f I. rewrite !in_app_iff in I. destruct I as [I|[I|I]].
      * destruct (Pl f I) as [X _]. eapply Ok0; [exact X| | | |]; try apply B1; try apply Qle_refl.
      * destruct (Pr f I) as [X _]. eapply Ok0; [exact X| | | |]; try apply B1; try apply Qle_refl.
      * destruct (P f I) as [X Y]. split; [intros s r Z; specialize (X s r Z); lra|]. intros v Iv. destruct (Y v Iv) as (Z1 & Z2 & Z3). split; auto. split; auto. lra.
    + apply pairs_app; auto; [apply pairs_app; auto|].
      * intros f g If Ig s r X Y. destruct (Pr f If) as [[X1 _] _]. destruct (P g Ig) as [Y1 _]. specialize (X1 s r X). specialize (Y1 s r Y). lra.
      * intros f g If Ig s r X Y. apply in_app_iff in Ig. destruct (Pl f If) as [[X1 _] (hi & X2)]. specialize (X1 s r X). specialize (X2 s r X). destruct Ig as [Ig|Ig].
        -- destruct (Pr g Ig) as [_ (lo & Y2)]. specialize (Y2 s r Y). lra.
        -- destruct (P g Ig) as [Y1 _]. specialize (Y1 s r Y). lra.
    + intros s r Hs _ [Cb Cz]. destruct (Qlt_le_dec s1 s) as [D|D].
      * destruct (C s r) as (f & I & X); [lra|lra|split; auto|]. exists f. split; auto. rewrite !in_app_iff. auto.
      * destruct (fraction s0 s1 s N0) as (t & T & Es); [lra|].
        assert (M0 : Qabs (s0 - s) <= grid + tol) by (apply near_station with s0 s1; lra). assert (M1 : Qabs (s1 - s) <= grid + tol) by (apply near_station with s0 s1; lra).
        pose proof (Cb s0 ltac:(lra) M0) as K0. pose proof (Cb s1 ltac:(lra) M1) as K1.
        assert (X : (exists f, In f fl /\ in_face f s r) \/ exists f, In f fr /\ in_face f s r).
        { destruct (Qlt_le_dec 0 r) as [R|R].
          - left. destruct (Cl t s r T Es) as [X|(_ & X & _)]; [lra|lra|lra|auto|lra].
          - destruct (Qlt_le_dec r 0) as [R'|R'].
            + right. destruct (Cr t s r T Es) as [X|(_ & X & _)]; [lra|lra|lra|auto|lra].
            + destruct Cz as [Z|[Z|Z]]; [exfalso; apply Z; lra| |].
              * left. pose proof (Z s0 ltac:(lra) M0). pose proof (Z s1 ltac:(lra) M1). destruct (Cl t s r T Es) as [X|(_ & _ & [X|X])]; [lra|lra|lra|auto|lra|lra].
              * right. pose proof (Z s0 ltac:(lra) M0). pose proof (Z s1 ltac:(lra) M1). destruct (Cr t s r T Es) as [X|(_ & _ & [X|X])]; [lra|lra|lra|auto|lra|lra]. }
        destruct X as [(f & I & X)|(f & I & X)]; exists f; (split; [|auto]); rewrite !in_app_iff; auto.
Qed.
End Precise.
