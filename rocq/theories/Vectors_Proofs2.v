(** Proofs for C111. *)
From Coq Require Import List Bool Arith ZArith Lia Ascii.
From Verif Require Import Base Binary64 Vectors_Model Vectors_Spec.
Import ListNotations.
Local Open Scope Z_scope.

Definition size (s : text) : Z := Z.of_nat (List.length s).
Lemma size_app a b : size (a ++ b) = size a + size b. Proof. unfold size. rewrite app_length. lia. Qed.
Lemma size_cons c s : size (c :: s) = 1 + size s. Proof. unfold size. cbn [List.length]. lia. Qed.
Lemma size_nonneg s : 0 <= size s. Proof. unfold size. lia. Qed.

Lemma find_skip c b : forall a i pos, i + size a <= pos -> find_at c (a ++ b) i pos = find_at c b (i + size a) pos.
Proof.
  induction a as [|x a IH]; intros i pos L; cbn [app].
  - unfold size. cbn. rewrite Z.add_0_r. reflexivity.
  - rewrite size_cons in *. cbn [find_at]. pose proof (size_nonneg a). destruct (Z.leb_spec pos i); [lia|]. cbn [andb]. rewrite IH by lia. f_equal. lia.
Qed.
Lemma find_here c r : forall t i pos, pos <= i -> (forall x, In x t -> x <> c) -> find_at c (t ++ c :: r) i pos = i + size t.
Proof.
  induction t as [|x t IH]; intros i pos L H; cbn [app find_at]; destruct (Z.leb_spec pos i); try lia; cbn [andb].
  - rewrite Ascii.eqb_refl. unfold size. cbn. lia.
  - destruct (Ascii.eqb_spec c x) as [->|N]; [exact (False_ind _ (H x (or_introl eq_refl) eq_refl))|]. rewrite IH by (try lia; intros y Y; apply H; right; exact Y). rewrite size_cons. lia.
Qed.
Lemma find_after c pre t r : (forall x, In x t -> x <> c) -> find_first_of (pre ++ t ++ c :: r) c (size pre) = size pre + size t.
Proof. intros H. unfold find_first_of. rewrite find_skip by lia. rewrite Z.add_0_l. apply find_here; [lia|exact H]. Qed.
Lemma substr_reads pre t c r len : size t <= len -> exists rest, substr (pre ++ t ++ c :: r) (size pre) len = Ok (t ++ rest) /\ (rest = [] \/ exists r', rest = c :: r').
Proof.
  intros L. unfold substr. set (s := pre ++ t ++ c :: r). assert (S : size s = size pre + size t + 1 + size r) by (unfold s; rewrite !size_app, size_cons; lia).
  fold (size s). pose proof (size_nonneg pre). pose proof (size_nonneg t). pose proof (size_nonneg r). destruct (Z.leb_spec (size pre) (size s)) as [_|X]; [|lia]. cbn [throw_unless].
  assert (E : skipn (Z.to_nat (size pre)) s = t ++ c :: r) by (unfold size, s; rewrite Nat2Z.id, skipn_app, skipn_all, Nat.sub_diag; reflexivity). rewrite E.
  set (k := Z.to_nat (Z.min len (size s))). assert (K : (List.length t <= k)%nat) by (unfold k, size in *; lia).
  rewrite firstn_app, firstn_all2 by exact K. eexists. split; [reflexivity|]. destruct (k - List.length t)%nat; [left; reflexivity|right; eexists; reflexivity].
Qed.
Lemma size_small z : 0 <= z < 2 ^ 64 -> size_t z = z. Proof. intros H. apply Z.mod_small, H. Qed.

Section Loop.
Variable stod : text -> outcome double.
Lemma loop_reads s n : size s < npos -> forall ts vs pre i, ts <> [] -> Forall2 (number_text stod) ts vs -> s = pre ++ commas ts ++ ["}"%char] ->
  1 <= size pre -> (forall x, In x pre -> x <> "}"%char) -> (i + List.length ts = n)%nat -> from_str_loop stod s n i (List.length ts) (size pre - 1) = Ok vs.
Proof.
  intros SN. unfold npos in SN. induction ts as [|t ts IH]; intros vs pre i NE F E P NB I; [congruence|]. inversion F as [|t0 x ts0 vs' T F' E1 E2]. subst t0 ts0. subst vs. clear F. destruct T as (T1 & T2).
  cbn [List.length from_str_loop]. replace (size pre - 1 + 1) with (size pre) by lia.
  assert (SP : size pre <= size s) by (rewrite E, size_app; pose proof (size_nonneg (commas (t :: ts) ++ ["}"%char])); lia).
  rewrite (size_small (size pre)) by lia. destruct ts as [|t' ts].
  - inversion F'; subst vs'. cbn [List.length] in I |- *. replace (i =? n - 1)%nat with true by (symmetry; apply Nat.eqb_eq; lia). cbn [commas] in E.
    assert (B : find_first_of s "}" 0 = size pre + size t).
    { unfold find_first_of. rewrite E, app_assoc. rewrite find_here; [rewrite size_app; lia|lia|]. intros y Y. apply in_app_or in Y as [Y|Y]; [apply NB, Y|apply T1, Y]. }
    rewrite B. pose proof (size_nonneg t). assert (SS : size s = size pre + size t + 1) by (rewrite E, !size_app; change (size ["}"%char]) with 1; lia). rewrite (size_small (size pre + size t - 1)) by lia.
    destruct (substr_reads pre t "}"%char [] (size pre + size t - 1) ltac:(lia)) as (rest & R1 & R2). rewrite <- E in R1. rewrite R1. cbn [obind]. rewrite T2; [reflexivity|].
    destruct R2 as [->|(r' & ->)]; [left; reflexivity|right; eauto].
  - replace (i =? n - 1)%nat with false by (symmetry; apply Nat.eqb_neq; cbn [List.length] in I; lia). change (commas (t :: t' :: ts)) with (t ++ ","%char :: commas (t' :: ts)) in E. rewrite <- app_assoc in E. change ((","%char :: commas (t' :: ts)) ++ ["}"%char]) with (","%char :: commas (t' :: ts) ++ ["}"%char]) in E.
    set (r := commas (t' :: ts) ++ ["}"%char]) in *. assert (C : find_first_of s "," (size pre) = size pre + size t) by (rewrite E; apply find_after; intros y Y; apply T1, Y). rewrite C.
    pose proof (size_nonneg t). pose proof (size_nonneg r). assert (SS : size s = size pre + size t + 1 + size r) by (rewrite E, !size_app, size_cons; lia). rewrite (size_small (size pre + size t - 1)) by lia.
    destruct (substr_reads pre t ","%char r (size pre + size t - 1) ltac:(lia)) as (rest & R1 & R2). rewrite <- E in R1. rewrite R1. cbn [obind]. rewrite T2.
    2: { destruct R2 as [->|(r' & ->)]; [left; reflexivity|right; eauto]. }
    cbn [obind]. replace (size pre + size t) with (size (pre ++ t ++ [","%char]) - 1) by (rewrite !size_app; unfold size; cbn; lia).
    rewrite (IH vs' (pre ++ t ++ [","%char]) (i + 1)%nat); [reflexivity|discriminate|exact F'| | | |cbn [List.length] in *; lia].
    + rewrite E, <- !app_assoc. reflexivity.
    + rewrite !size_app. pose proof (size_nonneg [","%char]). lia.
    + intros y Y. apply in_app_or in Y as [Y|Y]; [apply NB, Y|]. apply in_app_or in Y as [Y|[<-|[]]]; [apply T1, Y|discriminate].
Qed.
Lemma count_app c a b : count c (a ++ b) = (count c a + count c b)%nat.
Proof. unfold count. rewrite filter_app, app_length. reflexivity. Qed.
Lemma count_none c t : (forall x, In x t -> x <> c) -> count c t = 0%nat.
Proof. unfold count. induction t as [|x t IH]; intros H; [reflexivity|]. cbn [filter]. destruct (Ascii.eqb_spec c x) as [->|N]; [exact (False_ind _ (H x (or_introl eq_refl) eq_refl))|]. apply IH. intros y Y. apply H. right. exact Y. Qed.
Lemma count_commas : forall ts vs, Forall2 (number_text stod) ts vs -> ts <> [] ->
  count "{" (commas ts) = 0%nat /\ count "}" (commas ts) = 0%nat /\ count "," (commas ts) = (List.length ts - 1)%nat.
Proof.
  induction ts as [|t ts IH]; intros vs F N; [congruence|]. inversion F as [|t0 x ts0 vs' (T1 & _) F']; subst. assert (Z : forall c, c = "{"%char \/ c = "}"%char \/ c = ","%char -> count c t = 0%nat).
  { intros c C. apply count_none. intros y Y ->. destruct (T1 c Y) as (A & B & D). destruct C as [->|[->| ->]]; congruence. }
  destruct ts as [|t' ts]; [cbn [commas List.length]; rewrite !Z by auto; auto|]. destruct (IH vs' F' ltac:(discriminate)) as (A & B & C). change (commas (t :: t' :: ts)) with (t ++ ","%char :: commas (t' :: ts)).
  change (t ++ ","%char :: commas (t' :: ts)) with (t ++ [","%char] ++ commas (t' :: ts)). rewrite !count_app, A, B, C, !Z by auto. cbn [List.length]. repeat split. unfold count. cbn. lia.
Qed.
Lemma from_str_ok ts vs : ts <> [] -> Forall2 (number_text stod) ts vs -> size (braces ts) < npos -> FromStr stod (List.length ts) (braces ts) = Ok vs.
Proof.
  intros N F S. destruct (count_commas ts vs F N) as (A & B & C). unfold FromStr. change (braces ts) with (["{"%char] ++ commas ts ++ ["}"%char]) in *. set (s := ["{"%char] ++ commas ts ++ ["}"%char]) in *.
  assert (C1 : count "{" s = 1%nat) by (unfold s; rewrite !count_app, A; reflexivity). assert (C2 : count "}" s = 1%nat) by (unfold s; rewrite !count_app, B; reflexivity).
  assert (C3 : count "," s = (List.length ts - 1)%nat) by (unfold s; rewrite !count_app, C; cbn; lia). rewrite C1, C2, C3, !Nat.eqb_refl. cbn [throw_unless].
  assert (H : from_str_loop stod s (List.length ts) 0 (List.length ts) 0 = Ok vs).
  { change 0 with (size ["{"%char] - 1) at 1. apply loop_reads; try assumption; try reflexivity. intros x [<-|[]]. discriminate. }
  destruct ts as [|t [|t' ts]]; [congruence| |exact H]. cbn [List.length] in *. cbn [Nat.eqb from_str_loop Nat.sub] in *. change (size_t (0 + 1)) with 1 in H.
  destruct (substr s 1 _) as [u| |]; cbn [obind] in *; [|discriminate|discriminate]. destruct (stod u) as [x| |]; cbn [obind omap] in *; [exact H|discriminate|discriminate].
Qed.
End Loop.
