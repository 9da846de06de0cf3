(** Proofs for C110. *)
From Coq Require Import List Bool Arith ZArith Lia.
From Coq Require Import Floats.SpecFloat.
From Verif Require Import Base Binary64 Binary64_Round Binary64_Order Binary64_Ext Binary64_Sqrt Vectors_Model Vectors_Spec.
Import ListNotations.
Local Open Scope Z_scope.

Lemma fmul_comm a b : fmul a b = fmul b a.
Proof. unfold fmul. destruct a as [s|s| |s m e], b as [s'|s'| |s' m' e']; cbn [SFmul]; try reflexivity; try (rewrite xorb_comm; reflexivity). rewrite xorb_comm, (Pos.mul_comm m m'), (Z.add_comm e e'). reflexivity. Qed.
Lemma fadd_comm a b : fadd a b = fadd b a.
Proof.
  unfold fadd. destruct a as [s|s| |s m e], b as [s'|s'| |s' m' e']; cbn [SFadd]; try reflexivity.
  - destruct s, s'; reflexivity.
  - destruct s, s'; reflexivity.
  - cbv zeta. rewrite (Z.min_comm e e'). f_equal. apply Z.add_comm.
Qed.
Lemma inner_comm : forall a b acc, inner_product a b acc = inner_product b a acc.
Proof. induction a as [|x a IH]; intros [|y b] acc; try reflexivity. cbn [inner_product]. rewrite (fmul_comm x y). apply IH. Qed.
Lemma transform_comm : forall a b, transform fadd a b = transform fadd b a.
Proof. induction a as [|x a IH]; intros [|y b]; try reflexivity. cbn [transform]. rewrite fadd_comm, IH. reflexivity. Qed.

(** ** Equality *)
Lemma feq_place x y : valid x -> valid y -> (feq x y = true <-> number x /\ number y /\ place x = place y).
Proof.
  intros X Y. assert (N : forall z, valid z -> z = fnan \/ number z) by (intros z Z0; destruct z; [right|right|left; reflexivity|right]; split; (exact Z0 || discriminate)).
  destruct (N x X) as [->|NX]; [split; [discriminate|intros ((_ & H) & _); exact (False_ind _ (H eq_refl))]|].
  destruct (N y Y) as [->|NY]; [split; [destruct x; discriminate|intros (_ & (_ & H) & _); exact (False_ind _ (H eq_refl))]|].
  assert (E : feq x y = fle x y && fle y x).
  { unfold feq, fle, SFeqb, SFleb. destruct (number_cases x NX) as [DX|[->| ->]], (number_cases y NY) as [DY|[->| ->]].
    1: rewrite (compare_val x y DX DY), (compare_val y x DY DX); rewrite (Z.compare_antisym (val x) (val y)); destruct (val x ?= val y); reflexivity.
    1,2: destruct DX as [_ F]; destruct x as [[]|[]| |[] ? ?]; try discriminate; reflexivity.
    1,4: destruct DY as [_ F]; destruct y as [[]|[]| |[] ? ?]; try discriminate; reflexivity.
    all: reflexivity. }
  rewrite E, andb_true_iff, (fle_place x y NX NY), (fle_place y x NY NX). split; [intros; repeat split; try apply NX; try apply NY; lia|intros (_ & _ & H); lia].
Qed.
Lemma veq_equal : forall a b, Forall valid a -> Forall valid b -> (veq a b = true <-> equal_numbers a b).
Proof.
  induction a as [|x a IH]; intros [|y b] A B; cbn [veq].
  - split; [constructor|reflexivity].
  - split; [discriminate|intros H; inversion H].
  - split; [discriminate|intros H; inversion H].
  - apply Forall_cons_iff in A as (X & A). apply Forall_cons_iff in B as (Y & B). rewrite andb_true_iff, (feq_place x y X Y), (IH b A B). unfold equal_numbers. split.
    + intros (H & K). constructor; assumption.
    + intros H. inversion H; subst. split; assumption.
Qed.
Lemma double_place x : is_double x -> number x /\ place x = val x.
Proof. intros H. destruct (double_number x H) as (A & B & _). split; assumption. Qed.
Lemma rnd_zero z : rnd z = 0 <-> z = 0.
Proof.
  split; [|intros ->; reflexivity]. intros H. destruct (Z.lt_trichotomy z 0) as [L|[L|L]]; [|exact L|].
  - assert (0 < rnd (- z)) by (apply rnd_pos; lia). rewrite rnd_opp in H0. lia.
  - apply rnd_pos in L. lia.
Qed.
Lemma sub_zero x y : is_double x -> is_double y -> (number (fsub x y) /\ place (fsub x y) = 0 <-> val x = val y).
Proof.
  intros X Y. destruct (result_place _ _ (fsub_spec x y X Y)) as (N & P). rewrite P. pose proof top_pos as T. pose proof (rnd_zero (val x - val y)) as Z0. unfold cap. split.
  - intros (_ & H). assert (rnd (val x - val y) = 0) by lia. apply Z0 in H0. lia.
  - intros H. split; [exact N|]. assert (rnd (val x - val y) = 0) by (apply Z0; lia). lia.
Qed.
Lemma vsub_zero : forall a b, List.length a = List.length b -> Forall is_double a -> Forall is_double b ->
  (equal_numbers (vsub a b) (repeat fzero (List.length a)) <-> equal_values a b).
Proof.
  assert (N0 : number fzero /\ place fzero = 0) by (split; [split; [reflexivity|discriminate]|reflexivity]). destruct N0 as (N0 & P0).
  induction a as [|x a IH]; intros [|y b] L A B; try discriminate; cbn [vsub transform List.length repeat]; [split; constructor|].
  apply Forall_cons_iff in A as (X & A). apply Forall_cons_iff in B as (Y & B). injection L as L. specialize (IH b L A B). pose proof (sub_zero x y X Y) as S. split; intros H; inversion H; subst; constructor.
  - destruct H3 as (H3 & _ & H4). rewrite P0 in H4. repeat split; try apply X; try apply Y. apply S. split; assumption.
  - apply IH. assumption.
  - destruct H3 as (_ & _ & H3). apply S in H3 as (H3 & H4). split; [exact H3|]. split; [exact N0|]. rewrite P0. exact H4.
  - apply IH. assumption.
Qed.
Lemma add_zero x : is_double x -> is_double (fadd x fzero) /\ val (fadd x fzero) = val x.
Proof. intros X. assert (Z0 : is_double fzero) by (split; reflexivity). destruct (val_repr x X) as (R & T). assert (E : rnd (val x + val fzero) = val x) by (cbn [val]; rewrite Z.add_0_r; apply rnd_repr, R). destruct (fadd_small x fzero X Z0) as (D & V); [rewrite E; exact T|]. rewrite E in V. split; assumption. Qed.
Lemma one_double : is_double (fint 1) /\ val (fint 1) = 2 ^ 1074.
Proof. split; [split; reflexivity|reflexivity]. Qed.
Lemma rndm_exact v : repr v -> rndm (v * 2 ^ 1074) = v.
Proof. intros R. apply Z.le_antisymm; [apply rndm_le|apply rndm_ge]; try exact R; apply Z.le_refl. Qed.
Lemma result_double x r v : is_double x -> result v r -> v = val x -> is_double r /\ val r = val x.
Proof. intros X R ->. destruct (result_cases _ _ R) as [(D & V & _)|[(_ & H)|(_ & H)]]; [split; assumption| |]; pose proof (proj2 (val_repr x X)); lia. Qed.
Lemma mul_one x : is_double x -> is_double (fmul x (fint 1)) /\ val (fmul x (fint 1)) = val x.
Proof. intros X. destruct one_double as (O & V). apply (result_double x _ _ X (fmul_spec x (fint 1) X O)). rewrite V. apply rndm_exact, val_repr, X. Qed.
Lemma mul_zero x : is_double x -> is_double (fmul x fzero) /\ val (fmul x fzero) = 0.
Proof. intros [_ F]. destruct x as [s| | |s m e]; try discriminate; (split; [split; reflexivity|reflexivity]). Qed.
Lemma add_zeros x y : is_double x -> is_double y -> val y = 0 -> is_double (fadd x y) /\ val (fadd x y) = val x.
Proof. intros X Y V. apply (result_double x _ _ X (fadd_spec x y X Y)). rewrite V, Z.add_0_r. apply rnd_repr, val_repr, X. Qed.
Lemma add_zeros_l x y : is_double x -> is_double y -> val x = 0 -> is_double (fadd x y) /\ val (fadd x y) = val y.
Proof. intros X Y V. rewrite fadd_comm. apply add_zeros; assumption. Qed.
Lemma inner_zeros : forall v k acc, Forall is_double v -> is_double acc -> is_double (inner_product v (repeat fzero k) acc) /\ val (inner_product v (repeat fzero k) acc) = val acc.
Proof.
  induction v as [|x v IH]; intros [|k] acc F A; cbn [repeat inner_product]; try (split; [exact A|reflexivity]). apply Forall_cons_iff in F as (X & F).
  destruct (mul_zero x X) as (M & M0). destruct (add_zeros acc _ A M M0) as (D & E). destruct (IH k _ F D) as (P & Q). split; [exact P|]. rewrite Q. exact E.
Qed.
Lemma inner_unit : forall i v k x acc, Forall is_double v -> is_double acc -> val acc = 0 -> nth_error v i = Some x ->
  is_double (inner_product v (unit_vector i k) acc) /\ val (inner_product v (unit_vector i k) acc) = val x.
Proof.
  unfold unit_vector. induction i as [|i IH]; intros [|y v] k x acc F A A0 E; cbn [nth_error] in E; try discriminate; cbn [repeat app inner_product]; apply Forall_cons_iff in F as (Y & F).
  - injection E as <-. destruct (mul_one y Y) as (M & MV). destruct (add_zeros_l acc _ A M A0) as (D & DV). destruct (inner_zeros v k _ F D) as (P & Q). split; [exact P|]. rewrite Q, DV, MV. reflexivity.
  - destruct (mul_zero y Y) as (M & M0). destruct (add_zeros acc _ A M M0) as (D & DV). apply IH; [exact F|exact D|rewrite DV; exact A0|exact E].
Qed.

(** ** Norms *)
Lemma square_number x : is_double x -> number (fmul x x) /\ 0 <= place (fmul x x).
Proof.
  intros X. destruct (result_place _ _ (fmul_spec x x X X)) as (N & P). split; [exact N|]. rewrite P. pose proof top_pos as T.
  assert (0 <= rndm (val x * val x)) by (apply rndm_ge; [exists 0, 0; repeat split; lia|rewrite Z.mul_0_l; apply Z.square_nonneg]). unfold cap. lia.
Qed.
Lemma inner_number : forall v acc, Forall is_double v -> number acc -> 0 <= place acc -> number (inner_product v v acc) /\ place acc <= place (inner_product v v acc).
Proof.
  induction v as [|x v IH]; intros acc F A A0; cbn [inner_product]; [split; [exact A|lia]|]. apply Forall_cons_iff in F as (X & F). destruct (square_number x X) as (S & S0).
  destruct (fadd_up acc _ A S A0 S0) as (N & U & _). destruct (IH _ F N ltac:(lia)) as (P & Q). split; [exact P|lia].
Qed.
Lemma inner_nan_acc : forall a b, inner_product a b fnan = fnan.
Proof. induction a as [|x a IH]; intros [|y b]; try reflexivity. cbn [inner_product]. rewrite fadd_nan_l. apply IH. Qed.
Lemma inner_nan : forall a b acc, List.length a = List.length b -> In fnan a -> inner_product a b acc = fnan.
Proof.
  induction a as [|x a IH]; intros [|y b] acc L I; try discriminate; [destruct I|]. cbn [inner_product]. destruct I as [->|I]; [rewrite fmul_nan_l, fadd_nan_r; apply inner_nan_acc|apply IH; [injection L as L; exact L|exact I]].
Qed.

(** ** Differences both ways *)
Lemma aux_sign s m e l : binary_round_aux 53 1024 (negb s) m e l = SFopp (binary_round_aux 53 1024 s m e l).
Proof.
  unfold binary_round_aux. destruct (shr_fexp 53 1024 m e l) as (r, e1). destruct (shr_fexp 53 1024 _ e1 loc_Exact) as (r2, e2). destruct (shr_m r2); try reflexivity. destruct (_ <=? _); reflexivity.
Qed.
Lemma round_sign s m e : binary_round 53 1024 (negb s) m e = SFopp (binary_round 53 1024 s m e).
Proof. unfold binary_round. destruct (shl_align m e _). apply aux_sign. Qed.
Lemma normalize_sign m e : m <> 0 -> binary_normalize 53 1024 m e false = SFopp (binary_normalize 53 1024 (- m) e false).
Proof. destruct m as [|m|m]; [intros H; congruence| |]; intros _; cbn [Z.opp binary_normalize]; [exact (round_sign true m e)|exact (round_sign false m e)]. Qed.
Lemma fsub_opposite a b : opposite (fsub a b) (fsub b a).
Proof.
  unfold opposite, fsub, fneg. destruct a as [s|s| |s m e], b as [s'|s'| |s' m' e']; cbn [SFsub SFopp]; try (left; rewrite ?negb_involutive; reflexivity).
  - destruct s, s'; cbn; auto.
  - destruct s, s'; cbn; auto.
  - cbv zeta. rewrite (Z.min_comm e' e). set (p := cond_Zopp s _). set (q := cond_Zopp s' _). destruct (Z.eq_dec (p - q) 0) as [E|E].
    + right. replace (q - p) with 0 by lia. rewrite E. split; reflexivity.
    + left. rewrite (normalize_sign (p - q) _ E). replace (- (p - q)) with (q - p) by lia. reflexivity.
Qed.
Lemma fsub_self a : (finite a = true -> fsub a a = fzero) /\ (finite a = false -> fsub a a = fnan).
Proof.
  unfold fsub, fzero, fnan. destruct a as [s|s| |s m e]; cbn [finite SFsub]; split; intros H; try discriminate; try reflexivity; try (destruct s; reflexivity).
  cbv zeta. rewrite Z.sub_diag. reflexivity.
Qed.

(** ** reduce *)
Lemma reduce_rest index : forall v count red, reduce_loop index v count false red = red ++ v.
Proof. induction v as [|x v IH]; intros c red; cbn [reduce_loop andb]; [rewrite app_nil_r; reflexivity|]. rewrite IH, <- app_assoc. reflexivity. Qed.
Lemma reduce_all index : forall v count red, (count <= index)%nat -> (index < count + List.length v)%nat ->
  reduce_loop index v count true red = red ++ firstn (index - count) v ++ skipn (S (index - count)) v.
Proof.
  induction v as [|x v IH]; intros c red L H; cbn [List.length] in H; [lia|]. cbn [reduce_loop andb]. destruct (Nat.eqb_spec c index) as [->|N].
  - rewrite reduce_rest, Nat.sub_diag. reflexivity.
  - rewrite IH by lia. rewrite <- app_assoc. replace (index - c)%nat with (S (index - (c + 1))) by lia. cbn [firstn skipn app]. reflexivity.
Qed.
