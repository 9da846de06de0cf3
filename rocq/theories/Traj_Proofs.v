(** Evaluation of trajectories. *)
From Coq Require Import List QArith Qabs ZArith NArith Bool Arith Lia Lqa.
From Verif Require Import Base Poly_Model Poly_Spec Poly_Proofs Poly_Proofs2 Poly_Proofs3 Poly_Props Traj_Model Traj_Spec.
Import ListNotations.

Lemma search_ok l time : rising l -> forall fuel start last, (last - start < fuel)%nat -> (start < last < List.length l)%nat ->
  nth start l 0 <= time -> (time < nth last l 0 \/ (S last = List.length l /\ time <= nth last l 0)) ->
  exists i, segment_search fuel l time start last = Ok i /\ span l time i.
Proof.
  intros RI. induction fuel as [|f IH]; intros start last F B S1 S2; [lia|]. cbn [segment_search].
  assert (E : Nat.leb start last && Nat.ltb last (List.length l) && (Qleb time (nth last l 0) && Qleb (nth start l 0) time) = true).
  { apply andb_true_intro; split; [apply andb_true_intro; split; [apply Nat.leb_le|apply Nat.ltb_lt]; lia|]. apply andb_true_intro; split; apply Qleb_true; [|exact S1].
    destruct S2 as [L|[_ L]]; lra. }
  rewrite E. cbn [throw_unless]. destruct (Nat.leb_spec (last - start) 1) as [L|L].
  - exists start. split; [reflexivity|]. assert (last = S start) by lia. subst last. split; [lia|]. split; [exact S1|]. destruct S2 as [S2|[S2 S3]]; [left; exact S2|].
    destruct (Qlt_le_dec time (nth (S start) l 0)); [left; auto|right]. split; [lia|lra].
  - assert (M : (start < Nat.div2 (start + last) < last)%nat).
    { pose proof (Nat.div2_odd (start + last)) as D. destruct (Nat.odd (start + last)); cbn [Nat.b2n] in D; lia. }
    set (mid := Nat.div2 (start + last)) in *. destruct (Qltb_spec time (nth mid l 0)) as [Q1|Q1].
    + apply IH; auto; lia.
    + destruct (Qltb_spec (nth mid l 0) time) as [Q2|Q2].
      * apply IH; try lia; [lra|exact S2].
      * exists mid. split; [reflexivity|]. assert (RIm := RI mid ltac:(lia)). split; [lia|]. split; [exact Q1|]. left. lra.
Qed.

Lemma rising_le l : rising l -> forall i j, (i <= j < List.length l)%nat -> nth i l 0 <= nth j l 0.
Proof.
  intros RI i j. induction j as [|j IH]; intros [L B]; [replace i with O by lia; lra|].
  destruct (Nat.eq_dec i (S j)) as [->|N]; [lra|]. pose proof (RI j B). assert (nth i l 0 <= nth j l 0) by (apply IH; lia). lra.
Qed.
Lemma rising_lt l : rising l -> forall i j, (i < j < List.length l)%nat -> nth i l 0 < nth j l 0.
Proof.
  intros RI i j [L B]. pose proof (RI i ltac:(lia)). assert (nth (S i) l 0 <= nth j l 0) by (apply rising_le; auto; lia). lra.
Qed.
(** A time falls into one segment only. *)
Lemma span_unique l x y i j : rising l -> x == y -> span l x i -> span l y j -> i = j.
Proof.
  intros RI E (A1 & A2 & A3) (B1 & B2 & B3). destruct (Nat.lt_trichotomy i j) as [L|[->|L]]; [exfalso|reflexivity|exfalso].
  - assert (nth (S i) l 0 <= nth j l 0) by (apply rising_le; auto; lia). destruct A3 as [A3|[A3 _]]; [lra|lia].
  - assert (nth (S j) l 0 <= nth i l 0) by (apply rising_le; auto; lia). destruct B3 as [B3|[B3 _]]; [lra|lia].
Qed.
Lemma span_ext l x y i : x == y -> span l x i -> span l y i.
Proof. intros E (A & B & C). split; [auto|]. split; [lra|]. destruct C as [C|[C D]]; [left; lra|right; split; [auto|lra]]. Qed.
Lemma closest_unique lo hi t x y : closest lo hi t x -> closest lo hi t y -> x == y.
Proof.
  intros (A & B & C) (A' & B' & C'). destruct (Qlt_le_dec t lo) as [L|L]; [rewrite A, A' by auto; reflexivity|].
  destruct (Qlt_le_dec hi t) as [H|H]; [rewrite B, B' by auto; reflexivity|]. rewrite C, C' by auto. reflexivity.
Qed.
Lemma closest_clip lo hi t : lo <= hi -> closest lo hi t (cmin (cmax t lo) hi) /\ lo <= cmin (cmax t lo) hi <= hi.
Proof. intros L. unfold closest, cmin, cmax. split; [split; [|split]; intros|]; qcases; lra. Qed.

Lemma last_nth (l : list Q) : last l 0 = nth (List.length l - 1) l 0.
Proof.
  induction l as [|a l IH]; [reflexivity|]. destruct l as [|b l]; [reflexivity|]. change (last (a :: b :: l) 0) with (last (b :: l) 0). rewrite IH. cbn [List.length].
  replace (S (S (List.length l)) - 1)%nat with (S (S (List.length l) - 1)) by lia. reflexivity.
Qed.
Lemma hd_nth (l : list Q) : hd 0 l = nth 0 l 0.
Proof. destruct l; reflexivity. Qed.

Section Sound.
Context (p : traj) (R C : nat) (So : sound p R C).
Lemma len_breaks : List.length (breaks p) = S (List.length (polys p)).
Proof. apply So. Qed.
Lemma polys_pos : (0 < List.length (polys p))%nat.
Proof. destruct So as (_ & N & _). destruct (polys p); [congruence|simpl; lia]. Qed.
Lemma seg_number : segments p = List.length (polys p).
Proof. unfold segments. rewrite len_breaks. lia. Qed.
Lemma start_of i : (i < List.length (polys p))%nat -> start_time_of p (Z.of_nat i) = Ok (nth i (breaks p) 0).
Proof.
  intros L. unfold start_time_of, range_check. rewrite seg_number. replace (0 <=? Z.of_nat i)%Z with true by (symmetry; apply Z.leb_le; lia).
  replace (Z.of_nat i <? Z.of_nat (List.length (polys p)))%Z with true by (symmetry; apply Z.ltb_lt; lia). cbn. rewrite Nat2Z.id. reflexivity.
Qed.
Lemma end_of i : (i < List.length (polys p))%nat -> end_time_of p (Z.of_nat i) = Ok (nth (S i) (breaks p) 0).
Proof.
  intros L. unfold end_time_of, range_check. rewrite seg_number. replace (0 <=? Z.of_nat i)%Z with true by (symmetry; apply Z.leb_le; lia).
  replace (Z.of_nat i <? Z.of_nat (List.length (polys p)))%Z with true by (symmetry; apply Z.ltb_lt; lia). cbn [andb throw_unless]. rewrite Nat2Z.id. reflexivity.
Qed.
Lemma start_ok : start_time p = Ok (first_break p).
Proof. unfold start_time. change 0%Z with (Z.of_nat 0). rewrite (start_of 0 polys_pos). unfold first_break. rewrite hd_nth. reflexivity. Qed.
Lemma end_ok : end_time p = Ok (last_break p).
Proof.
  unfold end_time. rewrite seg_number. pose proof polys_pos. replace (Z.of_nat (List.length (polys p)) - 1)%Z with (Z.of_nat (List.length (polys p) - 1)) by lia.
  rewrite end_of by lia. unfold last_break. rewrite last_nth, len_breaks. f_equal. f_equal. lia.
Qed.
Lemma rows_ok : rows p = Ok R.
Proof. destruct So as (_ & N & _ & F & _). unfold rows. destruct (polys p) as [|m l]; [congruence|]. inversion F as [|? ? [A _] _]; subst. reflexivity. Qed.
Lemma cols_ok : cols p = Ok C.
Proof. destruct So as (_ & N & _ & F & _). unfold cols. destruct (polys p) as [|m l]; [congruence|]. inversion F as [|? ? [_ A] _]; subst. reflexivity. Qed.
Lemma first_le_last : first_break p <= last_break p.
Proof. unfold first_break, last_break. rewrite hd_nth, last_nth. apply rising_le; [apply So|]. rewrite len_breaks. lia. Qed.

(** Which segment a time is looked up in. *)
Lemma index_ok t : exists i x, get_segment_index p t = Ok i /\ x = cmin (cmax t (first_break p)) (last_break p) /\ closest (first_break p) (last_break p) t x /\ span (breaks p) x i /\ (i < List.length (polys p))%nat.
Proof.
  set (x := cmin (cmax t (first_break p)) (last_break p)). destruct (closest_clip _ _ t first_le_last) as [C1 C2]. fold x in C1, C2.
  pose proof len_breaks as LB. pose proof polys_pos as PP.
  destruct (search_ok (breaks p) x ltac:(apply So) (List.length (breaks p)) 0 (List.length (breaks p) - 1)) as (i & E & Sp); try lia.
  - unfold first_break in C2. rewrite hd_nth in C2. apply C2.
  - right. split; [lia|]. unfold last_break in C2. rewrite last_nth in C2. apply C2.
  - exists i, x. split; [|split; [reflexivity|split; [exact C1|split; [exact Sp|destruct Sp; lia]]]]. unfold get_segment_index. rewrite start_ok, end_ok. cbn [obind].
    destruct (breaks p) eqn:EB; [simpl in LB; lia|]. exact E.
Qed.
End Sound.

Lemma entry_nth p i m r c : nth_error (polys p) i = Some m -> entry p i r c = m_at m r c.
Proof. intros H. unfold entry. rewrite (nth_error_nth _ _ _ H). reflexivity. Qed.

Lemma eval_dsum p x k : p_univ p = true -> exists y, EvaluateUnivariate p x k = Ok y /\ y == dsum k (p_monos p) x.
Proof. intros U. unfold EvaluateUnivariate. rewrite U. cbn [throw_unless]. eexists. split; [reflexivity|]. rewrite eval_fold. ring. Qed.
Global Instance dsum_proper k ms : Proper (Qeq ==> Qeq) (dsum k ms).
Proof. intros x y E. induction ms as [|m r IH]; cbn [dsum]; [reflexivity|]. rewrite IH. rewrite (power_comp x y _ E). reflexivity. Qed.
Lemma curve_dsum q x : good q -> p_univ q = true -> curve q x == dsum 0 (p_monos q) x.
Proof. intros (_ & _ & O) U. destruct (O U) as (v & _ & F). unfold curve, value. apply (dsum_curve v); auto. Qed.
Global Instance curve_proper q : Proper (Qeq ==> Qeq) (curve q).
Proof.
  intros x y E. unfold curve, value. induction (p_monos q) as [|m r IH]; cbn [sumval]; [reflexivity|]. rewrite IH. apply Qplus_comp; [|reflexivity].
  unfold mval. apply Qmult_comp; [reflexivity|]. induction (m_terms m) as [|t ts IHt]; cbn [tval]; [reflexivity|]. rewrite IHt, (power_comp x y _ E). reflexivity.
Qed.

(** Loops over entries. *)
Lemma run_all_ok {A} (f : nat -> nat -> outcome A) l : (forall ij, In ij l -> exists a, f (fst ij) (snd ij) = Ok a) -> run_all l f = Ok tt.
Proof. induction l as [|ij r IH]; intros H; cbn [run_all]; [reflexivity|]. destruct (H ij (or_introl eq_refl)) as [a ->]. cbn [obind]. apply IH. intros; apply H; right; auto. Qed.
Lemma run_all_inv {A} (f : nat -> nat -> outcome A) l : run_all l f = Ok tt -> forall ij, In ij l -> exists a, f (fst ij) (snd ij) = Ok a.
Proof.
  induction l as [|x r IH]; intros H ij I; [destruct I|]. cbn [run_all] in H. destruct (f (fst x) (snd x)) as [a| |] eqn:E; cbn [obind] in H; try discriminate.
  destruct I as [->|I]; [eauto|apply IH; auto].
Qed.
Lemma in_grid r c i j : In (i, j) (list_prod (seq 0 r) (seq 0 c)) <-> (i < r)%nat /\ (j < c)%nat.
Proof. rewrite in_prod_iff, !in_seq. lia. Qed.
Lemma each_ok {A} (d : A) r c f : (forall i j, (i < r)%nat -> (j < c)%nat -> exists a, f i j = Ok a) ->
  exists m, each d r c f = Ok m /\ m_rows m = r /\ m_cols m = c /\ forall i j, (i < r)%nat -> (j < c)%nat -> f i j = Ok (m_at m i j).
Proof.
  intros H. unfold each. rewrite run_all_ok.
  - cbn [omap]. eexists. split; [reflexivity|]. split; [reflexivity|]. split; [reflexivity|]. intros i j Hi Hj. cbn [m_at]. destruct (H i j Hi Hj) as [a ->]. reflexivity.
  - intros [i j] I. apply in_grid in I. destruct I. cbn [fst snd]. auto.
Qed.
Lemma each_inv {A} (d : A) r c f m : each d r c f = Ok m -> m_rows m = r /\ m_cols m = c /\ forall i j, (i < r)%nat -> (j < c)%nat -> f i j = Ok (m_at m i j).
Proof.
  unfold each. destruct (run_all _ f) as [[]| |] eqn:E; cbn [omap]; intros H; try discriminate. injection H as <-. split; [reflexivity|]. split; [reflexivity|].
  intros i j Hi Hj. cbn [m_at]. destruct (run_all_inv _ _ E (i, j)) as [a Ea]; [apply in_grid; auto|]. cbn [fst snd] in Ea. rewrite Ea. reflexivity.
Qed.
Lemma mapM_inv {A B} (f : A -> outcome B) l l' : mapM f l = Ok l' -> Forall2 (fun a b => f a = Ok b) l l'.
Proof.
  revert l'. induction l as [|a r IH]; intros l' H; cbn [mapM] in H; [injection H as <-; constructor|].
  destruct (f a) as [b| |] eqn:E; cbn [obind] in H; try discriminate. destruct (mapM f r) as [r'| |] eqn:E'; cbn [omap] in H; try discriminate. injection H as <-. constructor; auto.
Qed.
Lemma mapM_ok {A B} (f : A -> outcome B) l : (forall a, In a l -> exists b, f a = Ok b) -> exists l', mapM f l = Ok l'.
Proof.
  induction l as [|a r IH]; intros H; cbn [mapM]; [eauto|]. destruct (H a (or_introl eq_refl)) as [b ->]. cbn [obind].
  destruct IH as [r' ->]; [intros; apply H; right; auto|]. cbn [omap]. eauto.
Qed.

Lemma sound_entry p R C i r c : sound p R C -> (i < List.length (polys p))%nat -> (r < R)%nat -> (c < C)%nat -> good (entry p i r c) /\ p_univ (entry p i r c) = true.
Proof. intros (_ & _ & _ & _ & H). apply H. Qed.
Lemma eval_segment_ok p R C i t r c k : sound p R C -> (i < List.length (polys p))%nat -> (r < R)%nat -> (c < C)%nat ->
  exists y, eval_segment p i t r c k = Ok y /\ y == dsum k (p_monos (entry p i r c)) (t - nth i (breaks p) 0).
Proof.
  intros So Hi Hr Hc. unfold eval_segment, seg. destruct (nth_error (polys p) i) as [m|] eqn:E; [|apply nth_error_None in E; lia]. cbn [obind].
  rewrite (start_of p R C So i Hi). cbn [obind]. rewrite <- (entry_nth p i m r c E). apply eval_dsum. eapply sound_entry; eauto.
Qed.
(** Evaluation: the workhorse. *)
Lemma eval_works p R C t k : sound p R C -> exists M, EvalDerivative p t k = Ok M /\ m_rows M = R /\ m_cols M = C /\
  forall i x, closest (first_break p) (last_break p) t x -> span (breaks p) x i -> forall r c, (r < R)%nat -> (c < C)%nat ->
    m_at M r c == dsum k (p_monos (entry p i r c)) (x - nth i (breaks p) 0).
Proof.
  intros So. destruct (index_ok p R C So t) as (i & x & Ei & Ex & Cl & Sp & Hi). unfold EvalDerivative. rewrite Ei, (start_ok p R C So), (end_ok p R C So), (rows_ok p R C So), (cols_ok p R C So).
  cbn [obind]. rewrite <- Ex.
  destruct (each_ok 0 R C (fun a b => eval_segment p i x a b k)) as (M & EM & MR & MC & Mf).
  { intros r c Hr Hc. destruct (eval_segment_ok p R C i x r c k So Hi Hr Hc) as (y & -> & _). eauto. }
  exists M. split; [exact EM|]. split; [auto|]. split; [auto|]. intros i' x' Cl' Sp' r c Hr Hc. pose proof (closest_unique _ _ _ _ _ Cl Cl') as Exx.
  assert (i = i') as <- by (eapply (span_unique (breaks p) x x'); eauto; apply So).
  destruct (eval_segment_ok p R C i x r c k So Hi Hr Hc) as (y & Ey & Hy). rewrite (Mf r c Hr Hc) in Ey. injection Ey as ->. rewrite Hy, Exx. reflexivity.
Qed.
Lemma value_works p R C t M : sound p R C -> tvalue p t = Ok M -> m_rows M = R /\ m_cols M = C /\
  forall i x, closest (first_break p) (last_break p) t x -> span (breaks p) x i -> forall r c, (r < R)%nat -> (c < C)%nat ->
    m_at M r c == curve (entry p i r c) (x - nth i (breaks p) 0).
Proof.
  intros So E. destruct (eval_works p R C t 0 So) as (M' & E' & MR & MC & H). unfold tvalue in E. assert (M' = M) by congruence. subst M'. split; [auto|]. split; [auto|].
  intros i x Cl Sp r c Hr Hc. rewrite (H i x Cl Sp r c Hr Hc). destruct (sound_entry p R C i r c So) as [G U]; auto; [pose proof (len_breaks p R C So); destruct Sp; lia|].
  symmetry. apply curve_dsum; auto.
Qed.
(** Every time has a closest one, and it falls into a segment. *)
Lemma spot p R C t : sound p R C -> exists i x, closest (first_break p) (last_break p) t x /\ span (breaks p) x i /\ (i < List.length (polys p))%nat.
Proof. intros So. destruct (index_ok p R C So t) as (i & x & _ & _ & A & B & D). eauto. Qed.
