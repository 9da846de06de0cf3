(** Proofs for C50 and C62: orientation of the faces, the area an arrow covers, grid units. *)
From Coq Require Import List QArith Qround Qabs Lqa Bool Arith ZArith Lia.
From Verif Require Import Base RoadMesh_Model RoadMesh_Spec RoadMesh_Proofs RoadMesh_Proofs2.
Import ListNotations.
Local Open Scope Q_scope.

Lemma mean_weak ws : forall xs lo hi, Forall (fun w => 0 <= w) ws -> length ws = length xs -> Forall (fun x => lo <= x <= hi) xs -> lo * total ws <= mean ws xs <= hi * total ws.
Proof.
  induction ws as [|w ws IH]; intros [|x xs] lo hi P L F; cbn in L; try discriminate; cbn [total mean]; [lra|].
  inversion P; subst. inversion F; subst. injection L as L. destruct (IH xs lo hi); auto. nra.
Qed.
Lemma mean_line ws : forall f p q, length ws = length f -> Forall (fun w => 0 <= w) ws -> Forall (fun v => p + q * s_of v <= r_of v) f -> p * total ws + q * mean ws (map s_of f) <= mean ws (map r_of f).
Proof.
  induction ws as [|w ws IH]; intros [|x xs] p q L P F; cbn in L; try discriminate; cbn [total mean map]; [lra|].
  inversion P; subst. inversion F; subst. injection L as L. specialize (IH xs p q L H2 H4). nra.
Qed.
Lemma mean_line_above ws : forall f p q, length ws = length f -> Forall (fun w => 0 <= w) ws -> Forall (fun v => r_of v <= p + q * s_of v) f -> mean ws (map r_of f) <= p * total ws + q * mean ws (map s_of f).
Proof.
  induction ws as [|w ws IH]; intros [|x xs] p q L P F; cbn in L; try discriminate; cbn [total mean map]; [lra|].
  inversion P; subst. inversion F; subst. injection L as L. specialize (IH xs p q L H2 H4). nra.
Qed.
(** Faces with their vertices between two lines lie between them. *)
Lemma in_face_s f s r lo hi : in_face f s r -> Forall (fun v => lo <= s_of v <= hi) f -> lo <= s <= hi.
Proof.
  intros (ws & P & L & T & S0 & R) F. destruct (mean_weak ws (map s_of f) lo hi) as [A B]; [auto|rewrite map_length; auto|apply Forall_map; auto|]. rewrite T, S0 in *. lra.
Qed.
Lemma in_face_line f s r p q p' q' : in_face f s r -> Forall (fun v => p + q * s_of v <= r_of v <= p' + q' * s_of v) f -> p + q * s <= r <= p' + q' * s.
Proof.
  intros (ws & P & L & T & S0 & R) F.
  pose proof (mean_line ws f p q L P) as A. pose proof (mean_line_above ws f p' q' L P) as B. rewrite T, S0, R in *. split.
  - enough (p * 1 + q * s <= r) by lra. apply A. eapply Forall_impl; [|exact F]. cbn. tauto.
  - enough (r <= p' * 1 + q' * s) by lra. apply B. eapply Forall_impl; [|exact F]. cbn. tauto.
Qed.
Lemma in_face_eq f s r s' r' : s == s' -> r == r' -> in_face f s r -> in_face f s' r'.
Proof. intros E1 E2 (ws & P & L & T & S0 & R). exists ws. split; auto. repeat split; auto; [rewrite <- E1|rewrite <- E2]; auto. Qed.

(** ** Orientation *)
Lemma left_ccw fuel grid elevation s0 s1 max0 max1 : 0 < grid -> s0 < s1 -> forall k m fs, left_loop fuel grid elevation s0 s1 max0 max1 k m = Ok fs -> forall f, In f fs -> 0 < twice_area f.
Proof.
  intros G L. induction fuel as [|fuel IH]; intros k m fs E f I; cbn [left_loop] in E; destruct (Qltb_spec k max0), (Qltb_spec m max1); cbn [andb] in E; try discriminate; try (injection E as <-; destruct I).
  destruct (left_loop fuel grid elevation s0 s1 max0 max1 (k + grid) (m + grid)) as [rest| |] eqn:Er; cbn [obind] in E; try discriminate. injection E as <-. destruct I as [<-|I]; [|eapply IH; eauto].
  unfold twice_area, vertex, s_of, r_of. cbn [sweep fst snd]. unfold s_of, r_of. cbn [fst snd].
  assert (k < cmin (k + grid) max0) by (unfold cmin; qcases; lra). assert (m < cmin (m + grid) max1) by (unfold cmin; qcases; lra). nra.
Qed.
Lemma right_ccw fuel grid elevation s0 s1 min0 min1 : 0 < grid -> s0 < s1 -> forall k m fs, right_loop fuel grid elevation s0 s1 min0 min1 k m = Ok fs -> forall f, In f fs -> 0 < twice_area f.
Proof.
  intros G L. induction fuel as [|fuel IH]; intros k m fs E f I; cbn [right_loop] in E; destruct (Qltb_spec min0 k), (Qltb_spec min1 m); cbn [andb] in E; try discriminate; try (injection E as <-; destruct I).
  destruct (right_loop fuel grid elevation s0 s1 min0 min1 (k - grid) (m - grid)) as [rest| |] eqn:Er; cbn [obind] in E; try discriminate. injection E as <-. destruct I as [<-|I]; [|eapply IH; eauto].
  unfold twice_area, vertex, s_of, r_of. cbn [sweep fst snd]. unfold s_of, r_of. cbn [fst snd].
  assert (cmax (k - grid) min0 < k) by (unfold cmax; qcases; lra). assert (cmax (m - grid) min1 < m) by (unfold cmax; qcases; lra). nra.
Qed.
Lemma precise_ccw fuel l tol grid seg elevation : 0 < grid -> 0 <= tol -> forall s0 fs, precise_loop fuel l tol grid seg elevation s0 = Ok fs -> forall f, In f fs -> 0 < twice_area f.
Proof.
  intros G Tol. induction fuel as [|fuel IH]; intros s0 fs E f I; cbn [precise_loop] in E; destruct (Qltb_spec s0 (length_ l)) as [H|H]; try discriminate; try (injection E as <-; destruct I).
  destruct (next_s_spec grid G l tol Tol s0 H) as ([N0 _] & _).
  match type of E with obind ?x _ = _ => destruct x as [fl| |] eqn:El end; cbn [obind] in E; try discriminate.
  match type of E with obind ?x _ = _ => destruct x as [fr| |] eqn:Er end; cbn [obind] in E; try discriminate.
  match type of E with obind ?x _ = _ => destruct x as [fx| |] eqn:Ex end; cbn [obind] in E; try discriminate.
  injection E as <-. apply in_app_iff in I. destruct I as [I|I]; [|apply in_app_iff in I; destruct I as [I|I]].
  - eapply left_ccw; [| |exact El|]; eauto.
  - eapply right_ccw; [| |exact Er|]; eauto.
  - eapply IH; eauto.
Qed.
Lemma optimized_ccw fuel l grid seg elevation : 0 < grid -> (forall s, rmin (bounds l seg s) < rmax (bounds l seg s)) -> forall s0 fs, 0 <= s0 -> optimized_loop fuel l grid seg elevation s0 = Ok fs -> forall f, In f fs -> 0 < twice_area f.
Proof.
  intros G W. induction fuel as [|fuel IH]; intros s0 fs S0 E f I; cbn [optimized_loop] in E; destruct (Qltb_spec s0 (length_ l)) as [H|H]; try discriminate; try (injection E as <-; destruct I).
  destruct (sample_step_spec l s0 grid G) as (inc & Ei & I1 & I2); [lra|]. rewrite Ei in E. cbn [obind] in E.
  assert (0 < inc) by (unfold cmin in I1; qcases; lra).
  match type of E with obind ?x _ = _ => destruct x as [fx| |] eqn:Ex end; cbn [obind] in E; try discriminate. injection E as <-.
  pose proof (W s0). pose proof (W (s0 + inc)). destruct I as [<-|[<-|I]]; [| |eapply (IH (s0 + inc)); eauto; lra];
    unfold twice_area, vertex, s_of, r_of; cbn [sweep fst snd]; unfold s_of, r_of; cbn [fst snd]; nra.
Qed.

(** ** The area covered by an arrow *)
Lemma cell_cover a b s0 s1 r u h : 0 <= a <= 1 -> 0 <= b <= 1 -> in_face (left_cell s0 s1 r (r + u) h) (s0 + a * (s1 - s0)) (r + b * u) /\ in_face (right_cell s0 s1 r (r + u) h) (s0 + a * (s1 - s0)) (r + b * u).
Proof.
  intros A B. split.
  - exists [(1 - a) * (1 - b); a * (1 - b); a * b; (1 - a) * b]. split; [repeat constructor; nra|]. unfold weighted, left_cell, s_of, r_of. cbn [length total mean map fst snd]. repeat split; ring.
  - exists [(1 - a) * (1 - b); (1 - a) * b; a * b; a * (1 - b)]. split; [repeat constructor; nra|]. unfold weighted, right_cell, s_of, r_of. cbn [length total mean map fst snd]. repeat split; ring.
Qed.
Lemma tip_cover a b s0 s1 r u h : 0 <= a -> 0 <= b -> a + b <= 1 -> in_face (left_tip s0 s1 r (r + u) h) (s0 + a * (s1 - s0)) (r + b * u) /\ in_face (right_tip s0 s1 r (r + u) h) (s0 + a * (s1 - s0)) (r + b * u).
Proof.
  intros A B C. split.
  - exists [1 - a - b; a; b]. split; [repeat constructor; lra|]. unfold weighted, left_tip, s_of, r_of. cbn [length total mean map fst snd]. repeat split; ring.
  - exists [1 - a - b; b; a]. split; [repeat constructor; lra|]. unfold weighted, right_tip, s_of, r_of. cbn [length total mean map fst snd]. repeat split; ring.
Qed.
Lemma row_cover (cell tip : Q -> Q -> Q -> Q -> Q -> face) s0 s1 u h :
  (forall a b r, 0 <= a <= 1 -> 0 <= b <= 1 -> in_face (cell s0 s1 r (r + u) h) (s0 + a * (s1 - s0)) (r + b * u)) ->
  (forall a b r, 0 <= a -> 0 <= b -> a + b <= 1 -> in_face (tip s0 s1 r (r + u) h) (s0 + a * (s1 - s0)) (r + b * u)) ->
  forall k r a b, 0 <= a <= 1 -> 0 <= b -> a + b <= qn k + 1 -> exists f, In f (row_loop cell tip k s0 s1 r u h) /\ in_face f (s0 + a * (s1 - s0)) (r + b * u).
Proof.
  intros Hc Ht. induction k as [|k IH]; intros r a b A B L; cbn [row_loop].
  - rewrite qn_0 in L. exists (tip s0 s1 r (r + u) h). split; [left; auto|]. apply Ht; lra.
  - rewrite qn_S in L. destruct (Qlt_le_dec 1 b) as [D|D].
    + destruct (IH (r + u) a (b - 1)) as (f & I & X); [lra|lra|lra|]. exists f. split; [right; auto|]. eapply in_face_eq; [reflexivity| |exact X]. ring.
    + exists (cell s0 s1 r (r + u) h). split; [left; auto|]. apply Hc; lra.
Qed.
Lemma arrow_cover s_off su rl rr h k : forall i a b, 0 <= a -> 0 <= b -> a + b <= qn (S k) ->
  (exists f, In f (arrow_loop (S k) i s_off su rl rr h) /\ in_face f (s_off + (qn i + a) * su) (b * rl)) /\
  (exists f, In f (arrow_loop (S k) i s_off su rl rr h) /\ in_face f (s_off + (qn i + a) * su) (- (b * rr))).
Proof.
  assert (Base : forall k i a b, 0 <= a <= 1 -> 0 <= b -> a + b <= qn k + 1 ->
    (exists f, In f (arrow_loop (S k) i s_off su rl rr h) /\ in_face f (s_off + (qn i + a) * su) (b * rl)) /\
    (exists f, In f (arrow_loop (S k) i s_off su rl rr h) /\ in_face f (s_off + (qn i + a) * su) (- (b * rr)))).
  { clear k. intros k i a b A B L. cbn [arrow_loop]. change (inject_Z (Z.of_nat i)) with (qn i). set (s0 := s_off + qn i * su). set (s1 := s_off + (qn i + 1) * su). split.
    - destruct (row_cover left_cell left_tip s0 s1 rl h) with (k := k) (r := 0) (a := a) (b := b) as (f & I & X); auto.
      + intros. apply cell_cover; auto.
      + intros. apply tip_cover; auto.
      + exists f. split; [apply in_app_iff; auto|]. eapply in_face_eq; [| |exact X]; subst s0 s1; ring.
    - destruct (row_cover right_cell right_tip s0 s1 (- rr) h) with (k := k) (r := 0) (a := a) (b := b) as (f & I & X); auto.
      + intros. apply cell_cover; auto.
      + intros. apply tip_cover; auto.
      + exists f. split; [apply in_app_iff; right; apply in_app_iff; auto|]. eapply in_face_eq; [| |exact X]; subst s0 s1; ring. }
  induction k as [|k IH]; intros i a b A B L.
  - rewrite qn_S, qn_0 in L. apply Base; [lra|lra|rewrite qn_0; lra].
  - rewrite qn_S in L. destruct (Qlt_le_dec 1 a) as [D|D].
    + destruct (IH (S i) (a - 1) b) as [(f & I & X) (g & J & Y)]; [lra|lra|lra|]. split; [exists f|exists g]; (split; [cbn [arrow_loop]; apply in_app_iff; right; apply in_app_iff; right; assumption|]).
      * eapply in_face_eq; [| |exact X]; [rewrite qn_S; ring|ring].
      * eapply in_face_eq; [| |exact Y]; [rewrite qn_S; ring|ring].
    + apply Base; [lra|lra|]. lra.
Qed.

Lemma ceil_pos x : 0 < x -> (1 <= Qceiling x)%Z.
Proof. intro H. pose proof (Qle_ceiling x) as C. assert (0 < inject_Z (Qceiling x)) as X by lra. change 0 with (inject_Z 0) in X. rewrite <- Zlt_Qlt in X. lia. Qed.
Lemma draw_arrow_spec l grid base size h : 0 < grid -> proper (lane_bounds l) -> 0 <= base -> 0 < size -> base + size <= length_ l ->
  exists fs, DrawLaneArrow l grid base size h = Ok fs /\ fills_triangle l base size h fs.
Proof.
  intros G B Hb Hs Hl. unfold DrawLaneArrow.
  destruct (Qleb_spec 0 base); [|lra]. destruct (Qleb_spec (base + size) (length_ l)); [|lra]. cbn [throw_unless].
  set (rb := lane_bounds l base). pose proof (B base) as B0. fold rb in B0.
  set (n := Z.max (Qceiling (size / grid)) (Z.max (Qceiling (rmax rb * (8 # 10) / grid)) (Qceiling (- rmin rb * (8 # 10) / grid)))).
  assert (N : (1 <= n)%Z). { assert (1 <= Qceiling (size / grid))%Z by (apply ceil_pos; apply Qlt_shift_div_l; lra). lia. }
  destruct (Z.leb_spec 1 n); [|lia]. cbn [throw_unless]. eexists. split; [reflexivity|].
  assert (Eqn : qn (Z.to_nat n) = inject_Z n) by (unfold qn; rewrite Z2Nat.id; auto; lia).
  assert (P : 0 < inject_Z n) by (change 0 with (inject_Z 0); rewrite <- Zlt_Qlt; lia).
  split.
  - intros f v If Iv. destruct (arrow_tri base (size / inject_Z n) (rmax rb * (8 # 10) / inject_Z n) (- rmin rb * (8 # 10) / inject_Z n) h (Z.to_nat n) (Z.to_nat n) 0%nat (Nat.add_0_l _) f v If Iv) as (X1 & i & j & X2 & X3 & X4 & X5 & X6).
    split; auto. exists (i / inject_Z n), (j / inject_Z n). rewrite Eqn in X4.
    split; [apply Qle_shift_div_l; lra|]. split; [apply Qle_shift_div_l; lra|]. split; [setoid_replace (i / inject_Z n + j / inject_Z n) with ((i + j) / inject_Z n) by (field; lra); apply Qle_shift_div_r; lra|].
    split; [rewrite X5; field; lra|]. fold rb. destruct X6 as [X6|X6]; [left|right]; rewrite X6; field; lra.
  - intros i j I1 J1 K. destruct (Z.to_nat n) as [|k] eqn:Ek; [lia|].
    destruct (arrow_cover base (size / inject_Z n) (rmax rb * (8 # 10) / inject_Z n) (- rmin rb * (8 # 10) / inject_Z n) h k 0%nat (i * inject_Z n) (j * inject_Z n)) as [(f & If & X) (g & Ig & Y)]; [nra|nra|rewrite Eqn; nra|].
    split; [exists f|exists g]; (split; [assumption|]).
    + eapply in_face_eq; [| |exact X]; fold rb; rewrite ?qn_0; field; lra.
    + eapply in_face_eq; [| |exact Y]; fold rb; rewrite ?qn_0; field; lra.
Qed.
