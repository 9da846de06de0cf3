(** Slices, concatenation, appended segments. *)
From Coq Require Import List QArith Qabs ZArith NArith Bool Arith Lia Lqa.
From Verif Require Import Base Poly_Model Poly_Spec Poly_Proofs Poly_Proofs2 Poly_Proofs3 Poly_Props Traj_Model Traj_Spec Traj_Proofs Traj_Proofs2 Traj_Proofs3.
Import ListNotations.

Lemma span_range p R C t i : sound p R C -> span (breaks p) t i -> first_break p <= t <= last_break p.
Proof.
  intros So (A & B & D). unfold first_break, last_break. rewrite hd_nth, last_nth. assert (RI : rising (breaks p)) by apply So.
  pose proof (rising_le _ RI 0 i ltac:(lia)). pose proof (rising_le _ RI (S i) (List.length (breaks p) - 1) ltac:(lia)). destruct D as [D|[_ D]]; lra.
Qed.
Lemma closest_self lo hi t : lo <= t <= hi -> closest lo hi t t.
Proof. intros H. split; [|split]; intros; try lra; reflexivity. Qed.
Lemma span_seg p R C t i : sound p R C -> span (breaks p) t i -> (i < List.length (polys p))%nat.
Proof. intros So (A & _). pose proof (len_breaks p R C So). lia. Qed.
Lemma value_at p R C t M i : sound p R C -> tvalue p t = Ok M -> span (breaks p) t i -> forall r c, (r < R)%nat -> (c < C)%nat ->
  m_at M r c == curve (entry p i r c) (t - nth i (breaks p) 0).
Proof. intros So V Sp. destruct (value_works p R C t M So V) as (_ & _ & W). apply W; auto. apply closest_self. eapply span_range; eauto. Qed.
Lemma eval_derives p R C t k M : sound p R C -> EvalDerivative p t k = Ok M ->
  forall i x, closest (first_break p) (last_break p) t x -> span (breaks p) x i -> forall r c g, (r < R)%nat -> (c < C)%nat ->
    derives k (curve (entry p i r c)) g -> m_at M r c == g (x - nth i (breaks p) 0).
Proof.
  intros So V i x Cl Sp r c g Hr Hc D. destruct (eval_works p R C t k So) as (M' & E' & _ & _ & W). assert (M' = M) by congruence. subst M'. rewrite (W i x Cl Sp r c Hr Hc).
  destruct (sound_entry p R C i r c So (span_seg p R C x i So Sp) Hr Hc) as [G U]. apply (derives_unique k (curve (entry p i r c)) (curve (entry p i r c))); [reflexivity|apply dsum_of_curve; auto|exact D].
Qed.
Lemma value_total p R C t : sound p R C -> exists M, tvalue p t = Ok M /\ m_rows M = R /\ m_cols M = C.
Proof. intros So. destruct (eval_works p R C t 0 So) as (M & E & A & B & _). eauto. Qed.

Lemma valid_spaced l : breaks_valid l = true <-> spaced l.
Proof.
  induction l as [|a [|b l] IH]; [split; [intros _ i Hi; simpl in Hi; lia|reflexivity]|split; [intros _ i Hi; simpl in Hi; lia|reflexivity]|].
  change (breaks_valid (a :: b :: l)) with (Qleb kEpsilonTime (b - a) && breaks_valid (b :: l)). rewrite andb_true_iff, IH. split.
  - intros [H1 H2] [|i] Hi; [apply Qleb_true in H1; exact H1|]. apply (H2 i). simpl in *. lia.
  - intros H. split; [apply Qleb_true; apply (H 0%nat); simpl; lia|]. intros i Hi. apply (H (S i)). simpl in *. lia.
Qed.
Lemma eps_pos : 0 < kEpsilonTime. Proof. reflexivity. Qed.
Lemma spaced_rising l : spaced l -> rising l.
Proof. intros H i Hi. specialize (H i Hi). pose proof eps_pos. lra. Qed.

Lemma make_ok ps bs R C : spaced bs -> List.length bs = S (List.length ps) -> ps <> [] ->
  (forall i m, nth_error ps i = Some m -> m_rows m = R /\ m_cols m = C /\ forall r c, (r < R)%nat -> (c < C)%nat -> good (m_at m r c) /\ p_univ (m_at m r c) = true) ->
  make ps bs = Ok (Traj bs ps) /\ sound (Traj bs ps) R C.
Proof.
  intros Sp L N H. split; [|apply sound_build; auto; apply spaced_rising; auto]. unfold make. rewrite (proj2 (valid_spaced bs) Sp). cbn [throw_unless].
  replace (List.length ps + 1)%nat with (List.length bs) by lia. rewrite Nat.eqb_refl.
  replace (match ps with m :: r => forallb (same_dims m) r | [] => true end) with true; [reflexivity|]. symmetry.
  destruct ps as [|m r]; [reflexivity|]. destruct (H 0%nat m eq_refl) as (A & B & _). apply forallb_forall. intros x I. apply In_nth_error in I. destruct I as [n En].
  destruct (H (S n) x En) as (A' & B' & _). unfold same_dims. rewrite A, B, A', B', !Nat.eqb_refl. reflexivity.
Qed.

(** Slices. *)
Lemma nth_cut (l : list Q) a n j : (j < n)%nat -> nth j (firstn n (skipn a l)) 0 = nth (a + j) l 0.
Proof.
  intros H. assert (X : forall (l : list Q) n j, (j < n)%nat -> nth j (firstn n l) 0 = nth j l 0).
  { clear. induction l as [|x l IH]; intros [|n] [|j] H; try lia; cbn; auto. apply IH. lia. }
  rewrite X by auto. clear X H. revert a. induction l as [|x l IH]; intros [|a]; cbn [skipn nth Nat.add]; auto. destruct j; reflexivity.
Qed.
Lemma nth_error_cut {A} (l : list A) a n j : (j < n)%nat -> nth_error (firstn n (skipn a l)) j = nth_error l (a + j).
Proof.
  intros H. assert (X : forall (l : list A) n j, (j < n)%nat -> nth_error (firstn n l) j = nth_error l j).
  { clear. induction l as [|x l IH]; intros [|n] [|j] H; try lia; cbn; auto. apply IH. lia. }
  rewrite X by auto. clear X H. revert a. induction l as [|x l IH]; intros [|a]; cbn [skipn nth_error Nat.add]; auto. destruct j; reflexivity.
Qed.
Lemma slice_ok p R C i n : sound p R C -> spaced (breaks p) -> (1 <= n)%nat -> (i + n <= List.length (polys p))%nat ->
  exists p', slice p (Z.of_nat i) (Z.of_nat n) = Ok p' /\ sound p' R C /\ List.length (polys p') = n /\ List.length (breaks p') = S n /\
  (forall j, (j <= n)%nat -> nth j (breaks p') 0 = nth (i + j) (breaks p) 0) /\
  (forall j r c, (j < n)%nat -> entry p' j r c = entry p (i + j) r c).
Proof.
  intros So Sp Hn Hi. pose proof (len_breaks p R C So) as LB.
  set (bs := firstn (S n) (skipn i (breaks p))). set (ps := firstn n (skipn i (polys p))).
  assert (Lb : List.length bs = S n) by (unfold bs; rewrite firstn_length, skipn_length; lia).
  assert (Lp : List.length ps = n) by (unfold ps; rewrite firstn_length, skipn_length; lia).
  assert (Hb : forall j, (j <= n)%nat -> nth j bs 0 = nth (i + j) (breaks p) 0) by (intros j Hj; apply nth_cut; lia).
  assert (Hp : forall j, (j < n)%nat -> nth_error ps j = nth_error (polys p) (i + j)) by (intros j Hj; apply nth_error_cut; lia).
  destruct (make_ok ps bs R C) as [E So'].
  - intros j Hj. rewrite !Hb by lia. replace (i + S j)%nat with (S (i + j)) by lia. apply Sp. lia.
  - lia.
  - intros X. rewrite X in Lp. simpl in Lp. lia.
  - intros j m E. assert (j < n)%nat by (rewrite <- Lp; apply nth_error_Some; congruence). rewrite Hp in E by auto. eapply sound_seg; eauto.
  - exists (Traj bs ps). split.
    + unfold slice, range_check. rewrite (seg_number p R C So). replace ((0 <=? Z.of_nat i)%Z && (Z.of_nat i <? Z.of_nat (List.length (polys p)))%Z) with true by (symmetry; apply andb_true_iff; split; [apply Z.leb_le|apply Z.ltb_lt]; lia).
      replace ((0 <=? Z.of_nat i + Z.of_nat n - 1)%Z && (Z.of_nat i + Z.of_nat n - 1 <? Z.of_nat (List.length (polys p)))%Z) with true by (symmetry; apply andb_true_iff; split; [apply Z.leb_le|apply Z.ltb_lt]; lia).
      cbn [throw_unless]. replace (Z.of_nat n <? 0)%Z with false by (symmetry; apply Z.ltb_ge; lia). rewrite !Nat2Z.id. exact E.
    + split; [exact So'|]. split; [exact Lp|]. split; [exact Lb|]. split; [exact Hb|]. intros j r c Hj. unfold entry. cbn [polys].
      destruct (nth_error (polys p) (i + j)) as [m|] eqn:E1; [|apply nth_error_None in E1; lia]. rewrite (nth_error_nth _ _ _ E1). rewrite <- Hp in E1 by auto. rewrite (nth_error_nth _ _ _ E1). reflexivity.
Qed.
Lemma slice_value p R C i n p' t M M' : sound p R C -> spaced (breaks p) -> (1 <= n)%nat -> (i + n <= List.length (polys p))%nat ->
  slice p (Z.of_nat i) (Z.of_nat n) = Ok p' -> nth i (breaks p) 0 <= t -> t < nth (i + n) (breaks p) 0 \/ ((i + n)%nat = List.length (polys p) /\ t == nth (i + n) (breaks p) 0) ->
  tvalue p t = Ok M -> tvalue p' t = Ok M' -> forall r c, (r < R)%nat -> (c < C)%nat -> m_at M' r c == m_at M r c.
Proof.
  intros So Sp Hn Hi E Lo Up V V' r c Hr Hc. destruct (slice_ok p R C i n So Sp Hn Hi) as (q & E' & So' & Lp & Lb & Hb & He). assert (q = p') by congruence. subst q. clear E'.
  pose proof (len_breaks p R C So) as LB. assert (RI : rising (breaks p)) by apply So.
  assert (Cl : closest (first_break p') (last_break p') t t).
  { apply closest_self. unfold first_break, last_break. rewrite hd_nth, last_nth, Lb, !Hb by lia. replace (S n - 1)%nat with n by lia. rewrite Nat.add_0_r. destruct Up as [Up|[_ Up]]; lra. }
  destruct (spot p' R C t So') as (j & x & Cx & Sj & Hj). pose proof (closest_unique _ _ _ _ _ Cx Cl) as Ex. apply (span_ext _ x t j Ex) in Sj.
  rewrite (value_at p' R C t M' j So' V' Sj r c Hr Hc). rewrite Lp in Hj.
  rewrite (value_at p R C t M (i + j) So V); auto.
  - rewrite Hb, He by lia. reflexivity.
  - destruct Sj as (_ & S1 & S2). rewrite !Hb in * by lia. replace (i + S j)%nat with (S (i + j)) in * by lia. split; [lia|]. split; [exact S1|].
    destruct S2 as [S2|[S2 S3]]; [left; exact S2|]. rewrite Lb in S2. assert (j = n - 1)%nat by lia. subst j. replace (S (i + (n - 1))) with (i + n)%nat in * by lia.
    destruct Up as [Up|[Up1 Up2]]; [lra|]. right. split; [lia|exact S3].
Qed.

(** Concatenation. *)
Lemma nth_removelast (l : list Q) : forall i, (S i < List.length l)%nat -> nth i (removelast l) 0 = nth i l 0.
Proof. induction l as [|a [|b l] IH]; intros [|i] H; simpl in H; try lia; [reflexivity|]. change (removelast (a :: b :: l)) with (a :: removelast (b :: l)). cbn [nth]. apply IH. simpl. lia. Qed.
Lemma removelast_len {A} (l : list A) : List.length (removelast l) = (List.length l - 1)%nat.
Proof. induction l as [|a [|b l] IH]; [reflexivity|reflexivity|]. change (removelast (a :: b :: l)) with (a :: removelast (b :: l)). cbn [List.length] in *. lia. Qed.

Lemma concatenate_ok p q R C : sound p R C -> sound q R C -> Qabs (first_break q - last_break p) < cmax (Qabs (last_break p)) 1 * kEpsilonTime ->
  exists s, concatenate p q = Ok s /\ sound s R C /\ List.length (polys s) = (List.length (polys p) + List.length (polys q))%nat /\
  (forall j, (j <= List.length (polys p))%nat -> nth j (breaks s) 0 == nth j (breaks p) 0) /\
  (forall j, (j <= List.length (polys q))%nat -> nth (List.length (polys p) + j) (breaks s) 0 == nth j (breaks q) 0 - (first_break q - last_break p)) /\
  (forall j r c, (j < List.length (polys p))%nat -> entry s j r c = entry p j r c) /\
  (forall j r c, (j < List.length (polys q))%nat -> entry s (List.length (polys p) + j) r c = entry q j r c).
Proof.
  intros So Sq T. unfold concatenate. pose proof (polys_pos p R C So) as PP. pose proof (polys_pos q R C Sq) as PQ. pose proof (len_breaks p R C So) as LB. pose proof (len_breaks q R C Sq) as LQ.
  replace (empty p) with false by (unfold empty; destruct (polys p); [simpl in PP; lia|reflexivity]).
  rewrite (rows_ok p R C So), (rows_ok q R C Sq), (cols_ok p R C So), (cols_ok q R C Sq), (start_ok q R C Sq), (end_ok p R C So). cbn [obind]. rewrite !Nat.eqb_refl. cbn [throw_unless].
  cbv zeta. rewrite (proj2 (Qltb_true _ _) T). cbn [throw_unless]. set (o := first_break q - last_break p) in *. eexists. split; [reflexivity|].
  set (s := Traj (removelast (breaks p) ++ map (fun b => b - o) (breaks q)) (polys p ++ polys q)).
  assert (B2 : forall j, (j <= List.length (polys q))%nat -> nth (List.length (polys p) + j) (breaks s) 0 == nth j (breaks q) 0 - o).
  { intros j Hj. unfold s. cbn [breaks]. rewrite app_nth2 by (rewrite removelast_len; lia). rewrite removelast_len.
    replace (List.length (polys p) + j - (List.length (breaks p) - 1))%nat with j by lia. rewrite nth_map_q by lia. reflexivity. }
  assert (B1 : forall j, (j <= List.length (polys p))%nat -> nth j (breaks s) 0 == nth j (breaks p) 0).
  { intros j Hj. destruct (Nat.eq_dec j (List.length (polys p))) as [->|Nj].
    - replace (List.length (polys p)) with (List.length (polys p) + 0)%nat at 1 by lia. rewrite B2 by lia. unfold o, first_break, last_break. rewrite hd_nth, last_nth, LB.
      replace (S (List.length (polys p)) - 1)%nat with (List.length (polys p)) by lia. ring.
    - unfold s. cbn [breaks]. rewrite app_nth1 by (rewrite removelast_len; lia). rewrite nth_removelast by lia. reflexivity. }
  assert (E1 : forall j r c, (j < List.length (polys p))%nat -> entry s j r c = entry p j r c) by (intros; unfold entry, s; cbn [polys]; rewrite app_nth1 by auto; reflexivity).
  assert (E2 : forall j r c, (j < List.length (polys q))%nat -> entry s (List.length (polys p) + j) r c = entry q j r c).
  { intros. unfold entry, s. cbn [polys]. rewrite app_nth2 by lia. replace (List.length (polys p) + j - List.length (polys p))%nat with j by lia. reflexivity. }
  split; [|split; [unfold s; cbn [polys]; apply app_length|auto]].
  apply sound_build.
  - rewrite !app_length, removelast_len, map_length. lia.
  - intros X. apply (f_equal (@List.length _)) in X. rewrite app_length in X. simpl in X. lia.
  - change (rising (breaks s)). assert (Ls : List.length (breaks s) = S (List.length (polys p) + List.length (polys q))) by (unfold s; cbn [breaks]; rewrite app_length, removelast_len, map_length; lia).
    intros i Hi. rewrite Ls in Hi. destruct (Nat.lt_ge_cases i (List.length (polys p))) as [L|L].
    + rewrite !B1 by lia. assert (RI : rising (breaks p)) by apply So. apply RI. lia.
    + replace i with (List.length (polys p) + (i - List.length (polys p)))%nat by lia. rewrite <- Nat.add_succ_r. rewrite !B2 by lia.
      destruct Sq as (_ & _ & RI & _). specialize (RI (i - List.length (polys p))%nat ltac:(lia)). lra.
  - intros i m E. destruct (Nat.lt_ge_cases i (List.length (polys p))) as [L|L].
    + rewrite nth_error_app1 in E by auto. eapply (sound_seg p R C i m So E).
    + rewrite nth_error_app2 in E by auto. eapply (sound_seg q R C _ m Sq E).
Qed.
Lemma span_lt (l : list Q) x i : (S i < List.length l)%nat -> nth i l 0 <= x -> x < nth (S i) l 0 -> span l x i.
Proof. intros. split; [auto|]. split; [auto|left; auto]. Qed.
Lemma concatenate_value p q R C s t : sound p R C -> sound q R C -> concatenate p q = Ok s -> Qabs (first_break q - last_break p) < cmax (Qabs (last_break p)) 1 * kEpsilonTime ->
  forall M, tvalue s t = Ok M -> forall r c, (r < R)%nat -> (c < C)%nat ->
  (t < last_break p -> forall N, tvalue p t = Ok N -> m_at M r c == m_at N r c) /\
  (last_break p <= t -> forall N, tvalue q (t + (first_break q - last_break p)) = Ok N -> m_at M r c == m_at N r c).
Proof.
  intros So Sq E T M V r c Hr Hc. destruct (concatenate_ok p q R C So Sq T) as (s' & E' & Ss & Ls & B1 & B2 & E1 & E2). assert (s' = s) by congruence. subst s'. clear E'.
  pose proof (len_breaks p R C So) as LB. pose proof (len_breaks q R C Sq) as LQ. pose proof (len_breaks s R C Ss) as LS. pose proof (polys_pos p R C So) as PP. pose proof (polys_pos q R C Sq) as PQ.
  destruct (value_works s R C t M Ss V) as (_ & _ & W).
  assert (Fs : first_break s == first_break p) by (unfold first_break; rewrite !hd_nth; apply B1; lia).
  set (o := first_break q - last_break p) in *.
  assert (Lst : last_break s == last_break q - o).
  { unfold last_break. rewrite !last_nth, LS, Ls, LQ. replace (S (List.length (polys p) + List.length (polys q)) - 1)%nat with (List.length (polys p) + List.length (polys q))%nat by lia. rewrite B2 by lia.
    replace (S (List.length (polys q)) - 1)%nat with (List.length (polys q)) by lia. reflexivity. }
  assert (Lpl : last_break p = nth (List.length (polys p)) (breaks p) 0) by (unfold last_break; rewrite last_nth, LB; f_equal; lia).
  pose proof (first_le_last p R C So) as FLp. pose proof (first_le_last q R C Sq) as FLq. split; intros Ht N VN.
  - destruct (value_works p R C t N So VN) as (_ & _ & WN). destruct (spot p R C t So) as (i & x & Cl & Sp & Hi). rewrite (WN i x Cl Sp r c Hr Hc).
    assert (Lx : x < last_break p).
    { destruct Cl as (C1 & _ & C3). assert (RI : rising (breaks p)) by apply So. pose proof (rising_lt _ RI 0 (List.length (polys p)) ltac:(lia)) as A. unfold first_break in *. rewrite hd_nth in *.
      destruct (Qlt_le_dec t (nth 0 (breaks p) 0)) as [Y|Y]; [specialize (C1 Y); rewrite Lpl; lra|specialize (C3 Y ltac:(lra)); lra]. }
    rewrite (W i x); auto.
    + rewrite E1 by auto. apply curve_proper. rewrite B1 by lia. reflexivity.
    + destruct Cl as (C1 & C2 & C3). split; [|split]; intros; rewrite ?Fs, ?Lst in *; [apply C1; lra| |apply C3; lra]. exfalso. unfold o in *. lra.
    + destruct Sp as (S1 & S2 & S3). apply span_lt; [lia|rewrite B1 by lia; exact S2|]. rewrite B1 by lia. destruct S3 as [S3|[S3 S4]]; [exact S3|].
      replace (S i) with (List.length (polys p)) in * by lia. rewrite <- Lpl in *. lra.
  - destruct (value_works q R C _ N Sq VN) as (_ & _ & WN). destruct (spot q R C (t + o) Sq) as (i & x & Cl & Sp & Hi). rewrite (WN i x Cl Sp r c Hr Hc).
    rewrite (W (List.length (polys p) + i)%nat (x - o)); auto.
    + rewrite E2 by auto. apply curve_proper. rewrite B2 by lia. ring.
    + assert (Y : first_break p < last_break p). { unfold first_break. rewrite hd_nth, Lpl. apply rising_lt; [apply So|lia]. }
      destruct Cl as (C1 & C2 & C3). assert (first_break q <= t + o) by (unfold o; lra). split; [|split]; intros; rewrite ?Fs, ?Lst in *; [lra|rewrite C2 by lra; ring|].
      rewrite C3 by lra. ring.
    + destruct Sp as (S1 & S2 & S3). split; [lia|]. rewrite <- Nat.add_succ_r, !B2 by lia. split; [lra|]. destruct S3 as [S3|[S3 S4]]; [left; lra|right]. split; [lia|]. rewrite S4. reflexivity.
Qed.

(** The cubic through given values and slopes. *)
Fixpoint dhorner (l : list Q) (x : Q) : Q := match l with [] => 0 | c :: r => horner r x + x * dhorner r x end.
Lemma horner_proper l x y : x == y -> horner l x == horner l y.
Proof. intros E. induction l as [|c r IH]; cbn [horner]; [reflexivity|]. rewrite IH, E. reflexivity. Qed.
Lemma slope_horner l x : slope (horner l) x (dhorner l x).
Proof.
  induction l as [|c r IH]; cbn [dhorner].
  - apply (slope_const 0 x).
  - apply (slope_ext (fun y => c + y * horner r y) _ x (0 + (horner r x + x * dhorner r x)) _); [reflexivity|ring|].
    apply (slope_add (fun _ => c) (fun y => y * horner r y)); [apply slope_const|]. apply slope_times_id; [intros y z; apply horner_proper|exact IH].
Qed.
Lemma derives_horner a b c d : derives 1 (horner [a; b; c; d]) (horner [b; 2 * c; 3 * d]) /\ derives 2 (horner [a; b; c; d]) (horner [2 * c; 6 * d]).
Proof.
  assert (X : forall x, slope (horner [a; b; c; d]) x (horner [b; 2 * c; 3 * d] x)).
  { intros x. apply (slope_ext (horner [a; b; c; d]) _ x (dhorner [a; b; c; d] x) _); [reflexivity|cbn; ring|apply slope_horner]. }
  split; (econstructor; [exact X|]).
  - constructor. reflexivity.
  - apply derives_S with (g := horner [2 * c; 6 * d]); [|constructor; reflexivity].
    intros x. apply (slope_ext (horner [b; 2 * c; 3 * d]) _ x (dhorner [b; 2 * c; 3 * d] x) _); [reflexivity|cbn; ring|apply slope_horner].
Qed.
Lemma derives_curve k l g : derives k (horner l) g -> derives k (curve (poly_coefs l)) g.
Proof. intros D. apply (derives_ext k (horner l) _ g g); [|reflexivity|exact D]. intros x. symmetry. apply from_coefficients. Qed.

(** The Hermite cubic. *)
Definition cubic_at (dt y0 y1 yd0 yd1 : Q) : list Q :=
  [y0; yd0; 1 / (dt * dt) * (y1 - y0 - dt * yd0 - dt * (yd1 - yd0 - 2 / dt * (y1 - y0 - dt * yd0))); 1 / (dt * dt) * (yd1 - yd0 - 2 / dt * (y1 - y0 - dt * yd0))].
Lemma cubic_ok dt y0 y1 yd0 yd1 : kEpsilonTime <= dt -> cubic_coeffs dt y0 y1 yd0 yd1 = Ok (cubic_at dt y0 y1 yd0 yd1).
Proof. intros H. unfold cubic_coeffs. rewrite (proj2 (Qleb_true _ _) H). reflexivity. Qed.
Lemma cubic_throws dt y0 y1 yd0 yd1 l : cubic_coeffs dt y0 y1 yd0 yd1 = Ok l -> kEpsilonTime <= dt.
Proof. unfold cubic_coeffs. destruct (Qleb kEpsilonTime dt) eqn:E; [intros _; apply Qleb_true; auto|discriminate]. Qed.
Lemma cubic_values dt y0 y1 yd0 yd1 : ~ dt == 0 -> let q := poly_coefs (cubic_at dt y0 y1 yd0 yd1) in
  curve q 0 == y0 /\ curve q dt == y1 /\ exists g, derives 1 (curve q) g /\ g 0 == yd0 /\ g dt == yd1.
Proof.
  intros N q. unfold q. destruct (from_coefficients (cubic_at dt y0 y1 yd0 yd1)) as (_ & _ & H). split; [rewrite H; cbn; field; auto|]. split; [rewrite H; cbn; field; auto|].
  eexists. split; [apply derives_curve, derives_horner|]. split; cbn; field; auto.
Qed.
