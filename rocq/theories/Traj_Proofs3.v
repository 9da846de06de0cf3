(** Reversal, integrals, pieces of trajectories. *)
From Coq Require Import List QArith Qabs ZArith NArith Bool Arith Lia Lqa.
From Verif Require Import Base Poly_Model Poly_Spec Poly_Proofs Poly_Proofs2 Poly_Proofs3 Poly_Props Traj_Model Traj_Spec Traj_Proofs Traj_Proofs2.
Import ListNotations.

(** Building soundness. *)
Lemma sound_build bs ps R C : List.length bs = S (List.length ps) -> ps <> [] -> rising bs ->
  (forall i m, nth_error ps i = Some m -> m_rows m = R /\ m_cols m = C /\ forall r c, (r < R)%nat -> (c < C)%nat -> good (m_at m r c) /\ p_univ (m_at m r c) = true) ->
  sound (Traj bs ps) R C.
Proof.
  intros L N RI H. split; [exact L|]. split; [exact N|]. split; [exact RI|]. split.
  - cbn [polys]. rewrite Forall_forall. intros m I. apply In_nth_error in I. destruct I as [i E]. destruct (H i m E) as (A & B & _). auto.
  - cbn [polys]. intros i r c Hi Hr Hc. destruct (nth_error_entry (Traj bs ps) i r c Hi) as (m & Em & ->). destruct (H i m Em) as (_ & _ & G). apply G; auto.
Qed.
Lemma sound_seg p R C i m : sound p R C -> nth_error (polys p) i = Some m -> m_rows m = R /\ m_cols m = C /\ forall r c, (r < R)%nat -> (c < C)%nat -> good (m_at m r c) /\ p_univ (m_at m r c) = true.
Proof.
  intros (_ & _ & _ & D & G) E. rewrite Forall_forall in D. destruct (D m (nth_error_In _ _ E)) as [A B]. split; [auto|]. split; [auto|]. intros r c Hr Hc.
  rewrite <- (entry_nth p i m r c E). apply G; auto. apply nth_error_Some. congruence.
Qed.

Lemma reverse_cons r c b0 b1 bs m l : reverse_segments r c (b0 :: b1 :: bs) (m :: l) =
  obind (each poly_zero r c (fun i j => reverse_entry (b1 - b0) (m_at m i j))) (fun m' => omap (cons m') (reverse_segments r c (b1 :: bs) l)).
Proof. reflexivity. Qed.
Lemma reverse_segments_ok R C : forall l bs, List.length bs = S (List.length l) ->
  (forall m, In m l -> forall r c, (r < R)%nat -> (c < C)%nat -> good (m_at m r c) /\ p_univ (m_at m r c) = true) ->
  exists l', reverse_segments R C bs l = Ok l' /\ List.length l' = List.length l /\
  forall i m, nth_error l i = Some m -> exists m', nth_error l' i = Some m' /\ m_rows m' = R /\ m_cols m' = C /\
    forall r c, (r < R)%nat -> (c < C)%nat -> good (m_at m' r c) /\ p_univ (m_at m' r c) = true /\
      forall u, curve (m_at m' r c) u == curve (m_at m r c) (nth (S i) bs 0 - nth i bs 0 - u).
Proof.
  induction l as [|m l IH]; intros bs L H.
  - exists []. split; [destruct bs; reflexivity|]. split; [reflexivity|]. intros i m E. destruct i; discriminate.
  - destruct bs as [|b0 [|b1 bs]]; cbn [List.length] in L; try lia. rewrite reverse_cons.
    destruct (each_ok poly_zero R C (fun i j => reverse_entry (b1 - b0) (m_at m i j))) as (m' & Em & Er & Ec & Ef).
    { intros r c Hr Hc. destruct (H m (or_introl eq_refl) r c Hr Hc) as [G U]. destruct (reverse_entry_ok (b1 - b0) _ G U) as (q' & -> & _). eauto. }
    rewrite Em. cbn [obind]. destruct (IH (b1 :: bs)) as (l' & El & Ll & Hl); [cbn [List.length]; lia|intros; apply H; [right; auto|auto|auto]|].
    rewrite El. cbn [omap]. exists (m' :: l'). split; [reflexivity|]. split; [cbn [List.length]; lia|]. intros [|i] m0 E; cbn [nth_error] in *.
    + injection E as <-. exists m'. split; [reflexivity|]. split; [auto|]. split; [auto|]. intros r c Hr Hc. destruct (H m (or_introl eq_refl) r c Hr Hc) as [G U].
      destruct (reverse_entry_ok (b1 - b0) _ G U) as (q' & Eq & Gq & Uq & Vq). rewrite (Ef r c Hr Hc) in Eq. injection Eq as ->. split; [auto|]. split; [auto|]. exact Vq.
    + destruct (Hl i m0 E) as (m1 & E1 & E2). exists m1. split; [auto|]. exact E2.
Qed.

Lemma rev_nth_error {A} (l : list A) i : (i < List.length l)%nat -> nth_error (rev l) (List.length l - 1 - i) = nth_error l i.
Proof.
  intros L. destruct (nth_error l i) as [a|] eqn:E; [|apply nth_error_None in E; lia].
  rewrite (nth_error_nth' (rev l) a) by (rewrite rev_length; lia). f_equal. rewrite rev_nth by lia.
  replace (List.length l - S (List.length l - 1 - i))%nat with i by lia. apply nth_error_nth; auto.
Qed.
Lemma neg_rev_nth l i : (i < List.length l)%nat -> nth i (map (fun b => b * -(1)) (rev l)) 0 == - nth (List.length l - 1 - i) l 0.
Proof.
  intros L. rewrite nth_map_q by (rewrite rev_length; auto). rewrite rev_nth by auto. replace (List.length l - S i)%nat with (List.length l - 1 - i)%nat by lia. ring.
Qed.
Lemma rising_rev l : rising l -> rising (map (fun b => b * -(1)) (rev l)).
Proof.
  intros RI i Hi. rewrite map_length, rev_length in Hi. rewrite !neg_rev_nth by lia. specialize (RI (List.length l - 1 - S i)%nat ltac:(lia)).
  replace (S (List.length l - 1 - S i)) with (List.length l - 1 - i)%nat in RI by lia. lra.
Qed.

Lemma reverse_ok p R C : sound p R C -> exists p', ReverseTime p = Ok p' /\ sound p' R C /\ breaks p' = map (fun b => b * -(1)) (rev (breaks p)) /\
  List.length (polys p') = List.length (polys p) /\
  forall i r c u, (i < List.length (polys p))%nat -> (r < R)%nat -> (c < C)%nat ->
    curve (entry p' (List.length (polys p) - 1 - i) r c) u == curve (entry p i r c) (nth (S i) (breaks p) 0 - nth i (breaks p) 0 - u).
Proof.
  intros So. pose proof (rows_ok p R C So) as ER. pose proof (cols_ok p R C So) as EC. pose proof (len_breaks p R C So) as LB. pose proof (polys_pos p R C So) as PP.
  destruct (reverse_segments_ok R C (polys p) (breaks p) LB) as (l' & El & Ll & Hl).
  { intros m I. apply In_nth_error in I. destruct I as [n En]. apply (sound_seg p R C n m So En). }
  exists (Traj (map (fun b => b * -(1)) (rev (breaks p))) (rev l')). split.
  { unfold ReverseTime. rewrite ER, EC. cbn [obind]. rewrite El. destruct (polys p); [simpl in PP; lia|reflexivity]. }
  split; [|split; [reflexivity|split; [cbn [polys]; rewrite rev_length; auto|]]].
  - apply sound_build.
    + rewrite map_length, !rev_length. lia.
    + intros E. apply (f_equal (@List.length _)) in E. rewrite rev_length in E. simpl in E. lia.
    + apply rising_rev. apply So.
    + intros i m E. assert (Li : (i < List.length l')%nat) by (rewrite <- (rev_length l'); apply nth_error_Some; congruence).
      replace i with (List.length l' - 1 - (List.length l' - 1 - i))%nat in E by lia. rewrite rev_nth_error in E by lia.
      destruct (nth_error (polys p) (List.length l' - 1 - i)) as [m0|] eqn:E0; [|apply nth_error_None in E0; lia].
      destruct (Hl _ _ E0) as (m' & E' & A & B & D). assert (m' = m) by congruence. subst m'. split; [auto|]. split; [auto|]. intros r c Hr Hc. destruct (D r c Hr Hc) as (D1 & D2 & _). auto.
  - intros i r c u Hi Hr Hc. destruct (nth_error_entry p i r c Hi) as (m & Em & ->). destruct (Hl _ _ Em) as (m' & E' & _ & _ & D). destruct (D r c Hr Hc) as (_ & _ & D').
    rewrite (entry_nth _ _ m'); [apply D'|]. cbn [polys]. rewrite <- Ll. rewrite rev_nth_error; [auto|lia].
Qed.

(** The value at -t after reversal. *)
Lemma reverse_value p R C p' t M M' r c : sound p R C -> ReverseTime p = Ok p' -> tvalue p t = Ok M -> tvalue p' (- t) = Ok M' -> (r < R)%nat -> (c < C)%nat ->
  (forall i, (S i < List.length (polys p))%nat -> t == nth (S i) (breaks p) 0 -> joins p r c 0 i) -> m_at M' r c == m_at M r c.
Proof.
  intros So E V V' Hr Hc J. destruct (reverse_ok p R C So) as (q & E1 & So' & Bq & Lq & Hq). assert (q = p') by congruence. subst q.
  pose proof (len_breaks p R C So) as LB. pose proof (polys_pos p R C So) as PP. set (N := List.length (polys p)) in *.
  assert (RI : rising (breaks p)) by apply So.
  assert (Hb : forall j, (j < S N)%nat -> nth j (breaks p') 0 == - nth (N - j) (breaks p) 0).
  { intros j Hj. rewrite Bq, neg_rev_nth by lia. replace (List.length (breaks p) - 1 - j)%nat with (N - j)%nat by lia. reflexivity. }
  assert (Lb : List.length (breaks p') = S N) by (rewrite Bq, map_length, rev_length; lia).
  destruct (value_works p R C t M So V) as (_ & _ & W). destruct (value_works p' R C (- t) M' So' V') as (_ & _ & W').
  destruct (spot p R C t So) as (i & x & Cl & Sp & Hi). fold N in Hi.
  assert (Cl' : closest (first_break p') (last_break p') (- t) (- x)).
  { assert (F1 : first_break p' == - last_break p).
    { unfold first_break, last_break. rewrite hd_nth, last_nth, Hb by lia. replace (N - 0)%nat with (List.length (breaks p) - 1)%nat by lia. reflexivity. }
    assert (F2 : last_break p' == - first_break p).
    { unfold first_break, last_break. rewrite hd_nth, last_nth, Hb by lia. replace (N - (List.length (breaks p') - 1))%nat with 0%nat by lia. reflexivity. }
    destruct Cl as (C1 & C2 & C3). split; [|split]; intros; rewrite ?F1, ?F2 in *.
    - rewrite C2 by lra. reflexivity.
    - rewrite C1 by lra. reflexivity.
    - rewrite C3 by lra. reflexivity. }
  rewrite (W i x Cl Sp r c Hr Hc).
  assert (D : nth i (breaks p) 0 < x \/ x == nth i (breaks p) 0) by (destruct Sp as (_ & S1 & _); destruct (Qlt_le_dec (nth i (breaks p) 0) x); [auto|right; lra]).
  assert (Up : x <= nth (S i) (breaks p) 0) by (destruct Sp as (_ & _ & [S1|[_ S1]]); lra).
  assert (Main : nth i (breaks p) 0 < x \/ i = 0%nat -> m_at M' r c == curve (entry p i r c) (x - nth i (breaks p) 0)).
  { intros X. rewrite (W' (N - 1 - i)%nat (- x)); [| exact Cl' | |auto|auto].
    - rewrite Hq by auto. apply curve_proper. rewrite Hb by lia. replace (N - (N - 1 - i))%nat with (S i) by lia. ring.
    - split; [lia|]. rewrite !Hb by lia. replace (N - (N - 1 - i))%nat with (S i) by lia. replace (N - S (N - 1 - i))%nat with i by lia. split; [lra|].
      destruct X as [X| ->]; [left; lra|]. destruct D as [D|D]; [left; lra|right]. split; [lia|]. rewrite D. reflexivity. }
  destruct D as [D|D]; [apply Main; auto|]. destruct i as [|i]; [apply Main; auto|]. clear Main.
  rewrite (W' (N - 1 - i)%nat (- x)); [| exact Cl' | |auto|auto].
  - rewrite Hq by lia. assert (Tx : t == nth (S i) (breaks p) 0).
    { destruct Cl as (C1 & C2 & C3). rewrite <- D. assert (A1 := rising_lt _ RI 0 (S i) ltac:(lia)). assert (A2 := rising_lt _ RI (S i) N ltac:(lia)).
      unfold first_break, last_break in *. rewrite hd_nth in *. rewrite last_nth in *. replace (List.length (breaks p) - 1)%nat with N in * by lia.
      destruct (Qlt_le_dec t (nth 0 (breaks p) 0)) as [Y|Y]; [specialize (C1 Y); lra|]. destruct (Qlt_le_dec (nth N (breaks p) 0) t) as [Z|Z]; [specialize (C2 Z); lra|]. symmetry. apply C3; auto. }
    destruct (J i ltac:(lia) Tx) as (f & g & F & G & FG). inversion F as [? ? F0|]; subst. inversion G as [? ? G0|]; subst.
    rewrite (curve_proper _ (nth (S i) (breaks p) 0 - nth i (breaks p) 0 - (- x - nth (N - 1 - i) (breaks p') 0)) (nth (S i) (breaks p) 0 - nth i (breaks p) 0)).
    + rewrite F0, FG, <- G0. apply curve_proper. rewrite D. ring.
    + rewrite Hb by lia. replace (N - (N - 1 - i))%nat with (S i) by lia. rewrite D. ring.
  - split; [lia|]. rewrite !Hb by lia. replace (N - (N - 1 - i))%nat with (S i) by lia. replace (N - S (N - 1 - i))%nat with i by lia. split; [lra|]. left. specialize (RI i ltac:(lia)). lra.
Qed.

(** Integrals. *)
Lemma curve_const c x : curve (poly_const c) x == c.
Proof. unfold curve, value. cbn [p_monos poly_const sumval]. unfold mval. cbn [m_coef m_terms tval]. ring. Qed.
Lemma integral_ok q c : good q -> p_univ q = true -> integrable q ->
  exists q', Integral q c = Ok q' /\ good q' /\ p_univ q' = true /\ curve q' 0 == c /\ forall x, slope (curve q') x (curve q x).
Proof.
  intros G U [E|O]; [|apply integral_means; auto]. exists (poly_const c). unfold Integral. rewrite U, E. cbn [integrate omap app throw_unless]. split; [reflexivity|].
  split; [apply good_const|]. split; [reflexivity|]. split; [apply curve_const|]. intros x.
  apply (slope_ext (fun _ => c) _ x 0 _); [intros y; symmetry; apply curve_const|unfold curve, value; rewrite E; reflexivity|apply slope_const].
Qed.
Lemma eval0 q x : good q -> p_univ q = true -> exists y, EvaluateUnivariate q x 0 = Ok y /\ y == curve q x.
Proof. intros G U. destruct (eval_dsum q x 0 U) as (y & E & H). exists y. split; [auto|]. rewrite H. symmetry. apply curve_dsum; auto. Qed.

Lemma integrate_from_ok p R C v : sound p R C -> (forall i r c, (i < List.length (polys p))%nat -> (r < R)%nat -> (c < C)%nat -> integrable (entry p i r c)) ->
  forall l pre prev, polys p = pre ++ l ->
  match prev with None => pre = [] | Some q => pre <> [] /\ forall r c, (r < R)%nat -> (c < C)%nat -> good (m_at q r c) /\ p_univ (m_at q r c) = true end ->
  exists l', integrate_from p R C (List.length pre) prev v l = Ok l' /\ List.length l' = List.length l /\
  forall j, (j < List.length l)%nat -> exists m', nth_error l' j = Some m' /\ m_rows m' = R /\ m_cols m' = C /\
    forall r c, (r < R)%nat -> (c < C)%nat -> good (m_at m' r c) /\ p_univ (m_at m' r c) = true /\
      (forall x, slope (curve (m_at m' r c)) x (curve (entry p (List.length pre + j) r c) x)) /\
      match j with
      | O => match prev with None => curve (m_at m' r c) 0 == m_at v r c
                           | Some q => curve (m_at m' r c) 0 == curve (m_at q r c) (nth (List.length pre) (breaks p) 0 - nth (List.length pre - 1) (breaks p) 0) end
      | S k => forall m0, nth_error l' k = Some m0 ->
                 curve (m_at m' r c) 0 == curve (m_at m0 r c) (nth (List.length pre + j) (breaks p) 0 - nth (List.length pre + k) (breaks p) 0)
      end.
Proof.
  intros So HI. induction l as [|m l IH]; intros pre prev Ep Hp; cbn [integrate_from].
  - exists []. split; [reflexivity|]. split; [reflexivity|]. intros j Hj. simpl in Hj. lia.
  - assert (Li : (List.length pre < List.length (polys p))%nat) by (rewrite Ep, app_length; simpl; lia).
    assert (Em : nth_error (polys p) (List.length pre) = Some m) by (rewrite Ep, nth_error_app2, Nat.sub_diag by lia; reflexivity).
    assert (Ge : forall r c, (r < R)%nat -> (c < C)%nat -> good (m_at m r c) /\ p_univ (m_at m r c) = true /\ integrable (m_at m r c)).
    { intros r c Hr Hc. rewrite <- (entry_nth p _ m r c Em). destruct (sound_entry p R C _ r c So Li Hr Hc). auto. }
    set (f := fun a b => match prev with
      | None => Integral (m_at m a b) (m_at v a b)
      | Some q => obind (start_time_of p (Z.of_nat (List.length pre))) (fun s => obind (start_time_of p (Z.of_nat (List.length pre) - 1)) (fun s0 =>
                  obind (EvaluateUnivariate (m_at q a b) (s - s0) 0) (Integral (m_at m a b)))) end).
    assert (Hf : forall r c, (r < R)%nat -> (c < C)%nat -> exists q', f r c = Ok q' /\ good q' /\ p_univ q' = true /\ (forall x, slope (curve q') x (curve (m_at m r c) x)) /\
      match prev with None => curve q' 0 == m_at v r c | Some q => curve q' 0 == curve (m_at q r c) (nth (List.length pre) (breaks p) 0 - nth (List.length pre - 1) (breaks p) 0) end).
    { intros r c Hr Hc. destruct (Ge r c Hr Hc) as (G & U & I). unfold f. destruct prev as [q|].
      - destruct Hp as [Np Gq]. destruct (Gq r c Hr Hc) as [G' U']. assert (0 < List.length pre)%nat by (destruct pre; [congruence|simpl; lia]).
        rewrite (start_of p R C So _ Li). cbn [obind]. replace (Z.of_nat (List.length pre) - 1)%Z with (Z.of_nat (List.length pre - 1)) by lia.
        rewrite (start_of p R C So (List.length pre - 1)) by lia. cbn [obind].
        destruct (eval0 (m_at q r c) (nth (List.length pre) (breaks p) 0 - nth (List.length pre - 1) (breaks p) 0) G' U') as (y & -> & Hy). cbn [obind].
        destruct (integral_ok _ y G U I) as (q' & Eq & Gq' & Uq' & V0 & Sl). exists q'. split; [auto|]. split; [auto|]. split; [auto|]. split; [auto|]. rewrite V0. exact Hy.
      - destruct (integral_ok _ (m_at v r c) G U I) as (q' & Eq & Gq' & Uq' & V0 & Sl). eauto 10. }
    destruct (each_ok poly_zero R C f) as (m' & E' & Er & Ec & Ef).
    { intros r c Hr Hc. destruct (Hf r c Hr Hc) as (q' & -> & _). eauto. }
    fold f. rewrite E'. cbn [obind].
    assert (Gm : forall r c, (r < R)%nat -> (c < C)%nat -> good (m_at m' r c) /\ p_univ (m_at m' r c) = true /\ (forall x, slope (curve (m_at m' r c)) x (curve (m_at m r c) x)) /\
      match prev with None => curve (m_at m' r c) 0 == m_at v r c | Some q => curve (m_at m' r c) 0 == curve (m_at q r c) (nth (List.length pre) (breaks p) 0 - nth (List.length pre - 1) (breaks p) 0) end).
    { intros r c Hr Hc. destruct (Hf r c Hr Hc) as (q' & Eq & Rest). rewrite (Ef r c Hr Hc) in Eq. injection Eq as ->. exact Rest. }
    destruct (IH (pre ++ [m]) (Some m')) as (l' & El & Ll & Hl).
    { rewrite Ep, <- app_assoc. reflexivity. }
    { split; [destruct pre; discriminate|]. intros r c Hr Hc. destruct (Gm r c Hr Hc) as (A & B & _). auto. }
    rewrite app_length in El. cbn [List.length] in El. replace (List.length pre + 1)%nat with (S (List.length pre)) in El by lia. rewrite El. cbn [omap].
    exists (m' :: l'). split; [reflexivity|]. split; [cbn [List.length]; lia|]. intros [|j] Hj.
    + exists m'. split; [reflexivity|]. split; [auto|]. split; [auto|]. intros r c Hr Hc. destruct (Gm r c Hr Hc) as (A & B & D & F). split; [auto|]. split; [auto|]. split; [|exact F].
      rewrite Nat.add_0_r. rewrite (entry_nth p _ m r c Em). exact D.
    + cbn [List.length] in Hj. destruct (Hl j ltac:(lia)) as (m1 & E1 & R1 & C1 & H1). exists m1. split; [exact E1|]. split; [auto|]. split; [auto|]. intros r c Hr Hc.
      destruct (H1 r c Hr Hc) as (A & B & D & F). split; [auto|]. split; [auto|]. rewrite app_length in D, F. cbn [List.length] in D, F. split.
      * replace (List.length pre + S j)%nat with (List.length pre + 1 + j)%nat by lia. exact D.
      * intros m0 E0. destruct j as [|j]; cbn [nth_error] in E0.
        -- injection E0 as <-. rewrite Nat.add_0_r. replace (List.length pre + 1 - 1)%nat with (List.length pre) in F by lia. exact F.
        -- specialize (F m0 E0). replace (List.length pre + S (S j))%nat with (List.length pre + 1 + S j)%nat by lia. replace (List.length pre + S j)%nat with (List.length pre + 1 + j)%nat by lia. exact F.
Qed.

Lemma integral_traj_ok p R C v : sound p R C -> (forall i r c, (i < List.length (polys p))%nat -> (r < R)%nat -> (c < C)%nat -> integrable (entry p i r c)) ->
  exists p', integral p v = Ok p' /\ sound p' R C /\ breaks p' = breaks p /\ List.length (polys p') = List.length (polys p) /\
  (forall r c, (r < R)%nat -> (c < C)%nat -> curve (entry p' 0 r c) 0 == m_at v r c) /\
  (forall i r c, (i < List.length (polys p))%nat -> (r < R)%nat -> (c < C)%nat -> forall x, slope (curve (entry p' i r c)) x (curve (entry p i r c) x)) /\
  (forall i r c, (S i < List.length (polys p))%nat -> (r < R)%nat -> (c < C)%nat -> joins p' r c 0 i).
Proof.
  intros So HI. destruct (integrate_from_ok p R C v So HI (polys p) [] None eq_refl eq_refl) as (l' & El & Ll & Hl). cbn [List.length Nat.add] in *.
  pose proof (polys_pos p R C So) as PP. pose proof (len_breaks p R C So) as LB. exists (Traj (breaks p) l'). split.
  { unfold integral. rewrite (rows_ok p R C So), (cols_ok p R C So). cbn [obind]. rewrite El. destruct (polys p); [simpl in PP; lia|reflexivity]. }
  split.
  { apply sound_build; [lia|intros ->; simpl in Ll; lia|apply So|]. intros i m E. assert (Li : (i < List.length l')%nat) by (apply nth_error_Some; congruence).
    destruct (Hl i ltac:(lia)) as (m' & E' & A & B & D). assert (m' = m) by congruence. subst m'. split; [auto|]. split; [auto|]. intros r c Hr Hc. destruct (D r c Hr Hc) as (? & ? & _). auto. }
  split; [reflexivity|]. split; [exact Ll|]. split; [|split].
  - intros r c Hr Hc. destruct (Hl 0%nat PP) as (m' & E' & _ & _ & D). rewrite (entry_nth (Traj (breaks p) l') 0 m' r c E'). apply D; auto.
  - intros i r c Hi Hr Hc. destruct (Hl i Hi) as (m' & E' & _ & _ & D). rewrite (entry_nth (Traj (breaks p) l') i m' r c E'). apply D; auto.
  - intros i r c Hi Hr Hc. destruct (Hl i ltac:(lia)) as (m0 & E0 & _). destruct (Hl (S i) Hi) as (m' & E' & _ & _ & D). destruct (D r c Hr Hc) as (_ & _ & _ & F). specialize (F m0 E0).
    exists (curve (m_at m0 r c)), (curve (m_at m' r c)). rewrite (entry_nth (Traj (breaks p) l') i m0 r c E0), (entry_nth (Traj (breaks p) l') (S i) m' r c E'). cbn [breaks].
    split; [constructor; reflexivity|]. split; [constructor; reflexivity|]. symmetry. exact F.
Qed.
