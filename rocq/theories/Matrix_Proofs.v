(** Lemmas for matrices: determinants of any size. *)
From Coq Require Import Reals Arith List Lia Lra.
From Verif Require Import Base Matrix_Model.
Import ListNotations.
Local Open Scope R_scope.

(** ** Sums *)
Lemma sum_ext : forall n f g, (forall i, (i < n)%nat -> f i = g i) -> sum n f = sum n g.
Proof. induction n as [|n IH]; intros f g H; cbn; [reflexivity|]. rewrite (IH f g); [rewrite (H n); auto|]. intros i L. apply H. lia. Qed.
Lemma sum_add : forall n f g, sum n (fun i => f i + g i) = sum n f + sum n g.
Proof. induction n as [|n IH]; intros f g; cbn; [ring|]. rewrite IH. ring. Qed.
Lemma sum_scale : forall n f k, sum n (fun i => k * f i) = k * sum n f.
Proof. induction n as [|n IH]; intros f k; cbn; [ring|]. rewrite IH. ring. Qed.
Lemma sum_zero : forall n f, (forall i, (i < n)%nat -> f i = 0) -> sum n f = 0.
Proof. induction n as [|n IH]; intros f H; cbn; [reflexivity|]. rewrite IH, (H n); [ring|lia|]. intros i L. apply H. lia. Qed.
Lemma sum_swap : forall n m f, sum n (fun i => sum m (fun j => f i j)) = sum m (fun j => sum n (fun i => f i j)).
Proof.
  induction n as [|n IH]; intros m f; cbn [sum].
  - symmetry. apply sum_zero. auto.
  - rewrite IH, <- sum_add. reflexivity.
Qed.
Lemma sum_first : forall n f, sum (S n) f = f O + sum n (fun i => f (S i)).
Proof. induction n as [|n IH]; intros f; [cbn; ring|]. change (sum (S (S n)) f) with (sum (S n) f + f (S n)). rewrite IH. cbn [sum]. ring. Qed.
Lemma sum_one : forall n f k, (k < n)%nat -> (forall i, (i < n)%nat -> i <> k -> f i = 0) -> sum n f = f k.
Proof.
  induction n as [|n IH]; intros f k L H; [lia|]. cbn. destruct (Nat.eq_dec k n) as [->|N].
  - rewrite sum_zero; [ring|]. intros i Li. apply H; lia.
  - rewrite (IH f k); [rewrite (H n); [ring|lia|lia]|lia|]. intros i Li Ni. apply H; lia.
Qed.

(** ** Signs and indices *)
Lemma sgn_S : forall k, sgn (S k) = - sgn k.
Proof.
  intro k. unfold sgn. pose proof (Nat.mod_upper_bound k 2 ltac:(lia)) as B. replace (S k mod 2)%nat with ((1 + k mod 2) mod 2)%nat by (rewrite Nat.add_mod_idemp_r; auto).
  destruct (k mod 2)%nat as [|[|r]]; cbn; try lra. lia.
Qed.
Lemma sgn_add : forall a b, sgn (a + b) = sgn a * sgn b.
Proof. induction a as [|a IH]; intro b; cbn [Nat.add]; [replace (sgn 0) with 1 by reflexivity; ring|]. rewrite !sgn_S, IH. ring. Qed.
Lemma sgn_sq : forall a, sgn a * sgn a = 1.
Proof. intro a. unfold sgn. destruct (Nat.eqb (a mod 2) 0); ring. Qed.
Ltac idx := repeat match goal with
  | |- context [Nat.ltb ?a ?b] => destruct (Nat.ltb_spec a b)
  | |- context [Nat.eqb ?a ?b] => destruct (Nat.eqb_spec a b)
  end; try lia; subst; try lia.
Lemma skip_lt : forall r i n, (i < n)%nat -> (skip r i < S n)%nat.
Proof. intros r i n L. unfold skip. idx. Qed.
Lemma skip_neq : forall r i, skip r i <> r.
Proof. intros r i. unfold skip. idx. Qed.

(** ** Determinants with the first row expansion for every size *)
Fixpoint dt (n : nat) (m : mat) : R :=
  match n with O => 1 | S k => sum (S k) (fun j => m O j * (sgn j * dt k (reduce m 0 j))) end.
Lemma dt_ext : forall n a b, (forall i j, (i < n)%nat -> (j < n)%nat -> a i j = b i j) -> dt n a = dt n b.
Proof.
  induction n as [|n IH]; intros a b H; cbn [dt]; [reflexivity|]. apply sum_ext. intros j L. rewrite H by lia. f_equal. f_equal. apply IH.
  intros i k Li Lk. unfold reduce. apply H; apply skip_lt; assumption.
Qed.
Lemma determinant_dt : forall n m, (0 < n)%nat -> determinant n m = dt n m.
Proof.
  induction n as [|n IH]; intros m L; [lia|]. destruct n as [|n]; [cbn; unfold sgn; cbn; ring|]. destruct n as [|n].
  - cbn. unfold sgn, reduce, skip. cbn. ring.
  - change (determinant (S (S (S n))) m) with (sum (S (S (S n))) (fun j => m O j * (sgn j * determinant (S (S n)) (reduce m 0 j)))).
    change (dt (S (S (S n))) m) with (sum (S (S (S n))) (fun j => m O j * (sgn j * dt (S (S n)) (reduce m 0 j)))). apply sum_ext. intros j Lj. rewrite IH; [reflexivity|lia].
Qed.

(** Expansion along the first column. *)
Lemma dt_col : forall n m, dt (S n) m = sum (S n) (fun i => m i O * (sgn i * dt n (reduce m i 0))).
Proof.
  induction n as [|n IH]; intro m; [cbn; reflexivity|].
  change (dt (S (S n)) m) with (sum (S (S n)) (fun j => m O j * (sgn j * dt (S n) (reduce m 0 j)))).
  rewrite sum_first, (sum_first _ (fun i => m i O * (sgn i * dt (S n) (reduce m i 0)))). f_equal.
  transitivity (sum (S n) (fun j => sum (S n) (fun i => m O (S j) * m (S i) O * (sgn (S j) * sgn i * dt n (reduce (reduce m 0 (S j)) i 0))))).
  - apply sum_ext. intros j Lj. rewrite IH. rewrite <- Rmult_assoc, <- sum_scale. apply sum_ext. intros i Li. change (reduce m 0 (S j) i O) with (m (S i) (skip (S j) O)). replace (skip (S j) 0) with O by (unfold skip; idx). ring.
  - rewrite sum_swap. apply sum_ext. intros i Li. change (dt (S n) (reduce m (S i) 0)) with (sum (S n) (fun j => reduce m (S i) 0 O j * (sgn j * dt n (reduce (reduce m (S i) 0) 0 j)))).
    rewrite <- Rmult_assoc, <- sum_scale. apply sum_ext. intros j Lj. change (reduce m (S i) 0 O j) with (m (skip (S i) O) (S j)). replace (skip (S i) 0) with O by (unfold skip; idx).
    rewrite !sgn_S. rewrite (dt_ext n (reduce (reduce m 0 (S j)) i 0) (reduce (reduce m (S i) 0) 0 j)); [ring|].
    intros a b La Lb. unfold reduce, skip. f_equal; idx.
Qed.
Lemma dt_transpose : forall n m, dt n (transpose m) = dt n m.
Proof.
  induction n as [|n IH]; intro m; [reflexivity|]. rewrite dt_col. apply sum_ext. intros i Li. change (transpose m i O) with (m O i). f_equal. f_equal. rewrite <- IH. reflexivity.
Qed.

(** ** Rows *)
Definition tr (p q i : nat) : nat := if Nat.eqb i p then q else if Nat.eqb i q then p else i.
Definition swap_rows (p q : nat) (m : mat) : mat := fun i j => m (tr p q i) j.
Lemma sum_tr : forall n f p, (S p < n)%nat -> sum n (fun i => f (tr p (S p) i)) = sum n f.
Proof.
  induction n as [|n IH]; intros f p L; [lia|]. cbn. destruct (Nat.eq_dec (S p) n) as [<-|N].
  - cbn. rewrite (sum_ext p (fun i => f (tr p (S p) i)) f) by (intros i Li; unfold tr; f_equal; idx). unfold tr. rewrite !Nat.eqb_refl. replace (S p =? p)%nat with false by idx. ring.
  - rewrite IH by lia. f_equal. unfold tr. f_equal. idx.
Qed.
Lemma dt_swap_adjacent : forall n m p, (S p < n)%nat -> dt n (swap_rows p (S p) m) = - dt n m.
Proof.
  induction n as [|n IH]; intros m p L; [lia|]. rewrite !dt_col.
  rewrite <- (sum_tr (S n) (fun i => m i O * (sgn i * dt n (reduce m i 0))) p L). replace (- sum (S n) (fun i => (fun i => m i O * (sgn i * dt n (reduce m i 0))) (tr p (S p) i)))
    with ((-1) * sum (S n) (fun i => (fun i => m i O * (sgn i * dt n (reduce m i 0))) (tr p (S p) i))) by ring. rewrite <- sum_scale. apply sum_ext. intros i Li. cbv beta.
  change (swap_rows p (S p) m i O) with (m (tr p (S p) i) O).
  destruct (Nat.eq_dec i p) as [->|N1]; [|destruct (Nat.eq_dec i (S p)) as [->|N2]].
  - rewrite (dt_ext n (reduce (swap_rows p (S p) m) p 0) (reduce m (S p) 0)) by (intros a b La Lb; unfold reduce, swap_rows, skip, tr; f_equal; idx).
    unfold tr. rewrite Nat.eqb_refl, sgn_S. ring.
  - rewrite (dt_ext n (reduce (swap_rows p (S p) m) (S p) 0) (reduce m p 0)) by (intros a b La Lb; unfold reduce, swap_rows, skip, tr; f_equal; idx).
    unfold tr. rewrite Nat.eqb_refl. replace (S p =? p)%nat with false by idx. rewrite sgn_S. ring.
  - replace (tr p (S p) i) with i by (unfold tr; idx).
    rewrite (dt_ext n (reduce (swap_rows p (S p) m) i 0) (swap_rows (if Nat.ltb i p then p - 1 else p) (S (if Nat.ltb i p then p - 1 else p)) (reduce m i 0))) by (intros a b La Lb; unfold reduce, swap_rows, skip, tr; f_equal; idx).
    rewrite IH by idx. ring.
Qed.
Lemma dt_equal_rows : forall n m i k, (i < k)%nat -> (k < n)%nat -> (forall j, (j < n)%nat -> m i j = m k j) -> dt n m = 0.
Proof.
  intros n m i k. remember (k - i)%nat as d eqn:Ed. revert m k Ed. induction d as [|d IH]; intros m k Ed L1 L2 H; [lia|]. destruct (Nat.eq_dec k (S i)) as [->|N].
  - assert (E : dt n m = - dt n m); [|lra]. rewrite <- (dt_swap_adjacent n m i L2) at 1. apply dt_ext. intros a b La Lb. unfold swap_rows, tr.
    destruct (Nat.eqb_spec a i) as [->|]; [apply H; auto|]. destruct (Nat.eqb_spec a (S i)) as [->|]; [symmetry; apply H; auto|reflexivity].
  - destruct k as [|k]; [lia|]. assert (E : dt n (swap_rows k (S k) m) = 0).
    { apply (IH _ k); try lia. intros j Lj. unfold swap_rows, tr. rewrite Nat.eqb_refl. replace (i =? k)%nat with false by idx. replace (i =? S k)%nat with false by idx. apply H. exact Lj. }
    rewrite dt_swap_adjacent in E by exact L2. lra.
Qed.
(** Expansion along any row. *)
Lemma dt_row : forall n i m, (i < S n)%nat -> sum (S n) (fun j => m i j * (sgn (i + j) * dt n (reduce m i j))) = dt (S n) m.
Proof.
  intro n. induction i as [|i IH]; intros m L; [reflexivity|]. specialize (IH (swap_rows i (S i) m) ltac:(lia)). rewrite dt_swap_adjacent in IH by exact L.
  replace (dt (S n) m) with ((-1) * (- dt (S n) m)) by ring. rewrite <- IH, <- sum_scale. apply sum_ext. intros j Lj. cbn [Nat.add]. rewrite sgn_S.
  rewrite (dt_ext n (reduce (swap_rows i (S i) m) i j) (reduce m (S i) j)) by (intros a b La Lb; unfold reduce, swap_rows, skip, tr; f_equal; idx).
  unfold swap_rows, tr. rewrite Nat.eqb_refl. ring.
Qed.
Definition with_row (i : nat) (u : nat -> R) (m : mat) : mat := fun a b => if Nat.eqb a i then u b else m a b.
Lemma dt_with_row : forall n i u m, (i < S n)%nat -> dt (S n) (with_row i u m) = sum (S n) (fun j => u j * (sgn (i + j) * dt n (reduce m i j))).
Proof.
  intros n i u m L. rewrite <- (dt_row n i) by exact L. apply sum_ext. intros j Lj.
  rewrite (dt_ext n (reduce (with_row i u m) i j) (reduce m i j)); [unfold with_row; rewrite Nat.eqb_refl; reflexivity|].
  intros a b La Lb. unfold reduce, with_row. destruct (Nat.eqb_spec (skip i a) i) as [E|]; [exfalso; exact (skip_neq _ _ E)|reflexivity].
Qed.
(** Rows times cofactors. *)
Lemma row_cofactors : forall n m i k, (i < S n)%nat -> (k < S n)%nat ->
  sum (S n) (fun j => m i j * (sgn (k + j) * dt n (reduce m k j))) = if Nat.eqb i k then dt (S n) m else 0.
Proof.
  intros n m i k Li Lk. destruct (Nat.eqb_spec i k) as [->|N]; [apply dt_row; exact Lk|]. rewrite <- (dt_with_row n k (m i) m Lk).
  assert (E : forall j, (j < S n)%nat -> with_row k (m i) m i j = with_row k (m i) m k j) by (intros j Lj; unfold with_row; rewrite Nat.eqb_refl; replace (i =? k)%nat with false by idx; reflexivity).
  destruct (le_lt_dec i k) as [L|L]; [apply (dt_equal_rows _ _ i k); auto; lia|apply (dt_equal_rows _ _ k i); auto; try lia; intros; symmetry; apply E; auto].
Qed.

(** ** Forms that are linear in the rows and vanish on equal rows *)
Section Forms.
Variables (n : nat) (D : mat -> R).
Definition unit_row (j : nat) : nat -> R := fun k => if Nat.eqb j k then 1 else 0.
Hypothesis D_ext : forall a b, (forall i j, (i < n)%nat -> (j < n)%nat -> a i j = b i j) -> D a = D b.
Hypothesis D_linear : forall i u m, (i < n)%nat -> D (with_row i u m) = sum n (fun j => u j * D (with_row i (unit_row j) m)).
Hypothesis D_alternating : forall m i k, (i < k)%nat -> (k < n)%nat -> (forall j, (j < n)%nat -> m i j = m k j) -> D m = 0.
Lemma D_equal : forall m i k, i <> k -> (i < n)%nat -> (k < n)%nat -> (forall j, (j < n)%nat -> m i j = m k j) -> D m = 0.
Proof. intros m i k N Li Lk H. destruct (le_lt_dec i k) as [L|L]; [apply (D_alternating _ i k); auto; lia|apply (D_alternating _ k i); auto; intros; symmetry; apply H; auto]. Qed.
Lemma D_sum : forall i u v m, (i < n)%nat -> D (with_row i (fun j => u j + v j) m) = D (with_row i u m) + D (with_row i v m).
Proof. intros i u v m L. rewrite !(D_linear i _ m L). rewrite <- sum_add. apply sum_ext. intros. ring. Qed.
Lemma D_swap : forall m i k, i <> k -> (i < n)%nat -> (k < n)%nat -> D (swap_rows i k m) = - D m.
Proof.
  intros m i k N Li Lk. set (P := fun u v => D (with_row i u (with_row k v m))). set (w := fun j => m i j + m k j).
  assert (C : forall u v, P u v = D (with_row k v (with_row i u m))) by (intros u v; apply D_ext; intros a b _ _; unfold with_row; destruct (Nat.eqb_spec a i), (Nat.eqb_spec a k); auto; congruence).
  assert (Z : forall u, P u u = 0) by (intro u; apply (D_equal _ i k); auto; intros j Lj; unfold with_row; rewrite !Nat.eqb_refl; replace (k =? i)%nat with false by idx; reflexivity).
  assert (E : P w w = P (m i) (m i) + P (m i) (m k) + (P (m k) (m i) + P (m k) (m k))).
  { unfold P at 1. unfold w at 1. rewrite D_sum by exact Li. fold (P (m i) w) (P (m k) w). rewrite (C (m i) w), (C (m k) w). unfold w. rewrite !D_sum by exact Lk. rewrite <- !C. reflexivity. }
  rewrite !Z in E. assert (E1 : D m = P (m i) (m k)) by (apply D_ext; intros a b _ _; unfold with_row; destruct (Nat.eqb_spec a i) as [->|]; auto; destruct (Nat.eqb_spec a k) as [->|]; auto).
  assert (E2 : D (swap_rows i k m) = P (m k) (m i)) by (apply D_ext; intros a b _ _; unfold with_row, swap_rows, tr; destruct (Nat.eqb a i); auto; destruct (Nat.eqb a k); auto).
  rewrite E1, E2. lra.
Qed.
End Forms.

Section Unique.
Variables (n : nat) (D : mat -> R).
Hypothesis D_ext : forall a b, (forall i j, (i < n)%nat -> (j < n)%nat -> a i j = b i j) -> D a = D b.
Hypothesis D_linear : forall i u m, (i < n)%nat -> D (with_row i u m) = sum n (fun j => u j * D (with_row i (unit_row j) m)).
Hypothesis D_alternating : forall m i k, (i < k)%nat -> (k < n)%nat -> (forall j, (j < n)%nat -> m i j = m k j) -> D m = 0.
Lemma dt_linear : forall i u m, (i < n)%nat -> dt n (with_row i u m) = sum n (fun j => u j * dt n (with_row i (unit_row j) m)).
Proof.
  clear. destruct n as [|k]; intros i u m L; [lia|]. rewrite dt_with_row by exact L. apply sum_ext. intros j Lj. rewrite dt_with_row by exact L. f_equal.
  rewrite (sum_one _ _ j Lj); [unfold unit_row; rewrite Nat.eqb_refl; ring|]. intros l Ll Nl. unfold unit_row. replace (j =? l)%nat with false by idx. ring.
Qed.
Lemma dt_identity : dt n identity = 1.
Proof.
  clear. induction n as [|k IH]; [reflexivity|]. cbn [dt]. rewrite (sum_one _ _ O); [|lia|intros j Lj Nj; unfold identity; replace (0 =? j)%nat with false by idx; ring].
  unfold identity at 1. cbn. replace (sgn 0) with 1 by reflexivity. rewrite (dt_ext k (reduce identity 0 0) identity); [rewrite IH; ring|]. intros a b _ _. reflexivity.
Qed.
(** Rows that are unit vectors. *)
Definition chosen (f : nat -> nat) : mat := fun i j => if Nat.eqb (f i) j then 1 else 0.
Lemma duplicate_dec : forall (f : nat -> nat) k, {exists i j, (i < j)%nat /\ (j < k)%nat /\ f i = f j} + {forall i j, (i < j)%nat -> (j < k)%nat -> f i <> f j}.
Proof.
  clear. intros f k. induction k as [|k IH]; [right; intros; lia|]. destruct IH as [Y|N]; [left; destruct Y as (i & j & L1 & L2 & E); exists i, j; repeat split; auto; lia|].
  assert (X : forall l, {exists i, (i < l)%nat /\ f i = f k} + {forall i, (i < l)%nat -> f i <> f k}).
  { induction l as [|l IHl]; [right; intros; lia|]. destruct IHl as [Y|N']; [left; destruct Y as (i & L & E); exists i; split; auto; lia|].
    destruct (Nat.eq_dec (f l) (f k)) as [E|E]; [left; exists l; auto|]. right. intros i L. destruct (Nat.eq_dec i l) as [->|]; [exact E|apply N'; lia]. }
  destruct (X k) as [Y|N']; [left; destruct Y as (i & L & E); exists i, k; auto|]. right. intros i j L1 L2. destruct (Nat.eq_dec j k) as [->|]; [apply N'; exact L1|apply N; lia].
Qed.
Lemma hit : forall (f : nat -> nat) k, (forall i, (i < n)%nat -> (f i < n)%nat) -> (forall i j, (i < j)%nat -> (j < n)%nat -> f i <> f j) -> (k < n)%nat -> exists i, (i < n)%nat /\ f i = k.
Proof.
  clear. intros f k B I L. assert (ND : NoDup (map f (seq 0 n))).
  { apply (NoDup_nth _ O). intros i j Li Lj E. rewrite map_length, seq_length in Li, Lj. rewrite !(nth_indep (map f (seq 0 n)) O (f O)) in E by (rewrite map_length, seq_length; assumption).
    rewrite !map_nth, !seq_nth in E by assumption. cbn in E. destruct (Nat.lt_trichotomy i j) as [X|[X|X]]; auto; exfalso; [apply (I i j)|apply (I j i)]; auto. }
  assert (J : incl (seq 0 n) (map f (seq 0 n))).
  { apply NoDup_length_incl; [exact ND|rewrite map_length; auto|]. intros x Hx. apply in_map_iff in Hx. destruct Hx as (i & <- & Hi). apply in_seq in Hi. apply in_seq. specialize (B i). lia. }
  assert (In k (map f (seq 0 n))) as X by (apply J; apply in_seq; lia). apply in_map_iff in X. destruct X as (i & E & Hi). apply in_seq in Hi. exists i. split; [lia|exact E].
Qed.
Lemma unique_chosen : forall k f, (k <= n)%nat -> (forall i, (i < n)%nat -> (f i < n)%nat) -> (forall i, (k <= i)%nat -> (i < n)%nat -> f i = i) -> D (chosen f) = dt n (chosen f) * D identity.
Proof.
  induction k as [|k IH]; intros f L B H.
  - rewrite (D_ext (chosen f) identity), (dt_ext n (chosen f) identity), dt_identity; [ring| |]; intros i j Li Lj; unfold chosen, identity; rewrite H by lia; reflexivity.
  - destruct (duplicate_dec f n) as [(i & j & L1 & L2 & E)|N].
    + assert (Eq : forall b, (b < n)%nat -> chosen f i b = chosen f j b) by (intros b _; unfold chosen; rewrite E; reflexivity).
      rewrite (D_alternating _ i j L1 L2 Eq), (dt_equal_rows n _ i j L1 L2 Eq). ring.
    + destruct (hit f k B N ltac:(lia)) as (i & Li & Ei). destruct (Nat.eq_dec i k) as [->|Nk].
      * apply IH; [lia|exact B|]. intros a La Lb. destruct (Nat.eq_dec a k) as [->|]; [exact Ei|apply H; lia].
      * assert (Lik : (i < k)%nat) by (destruct (le_lt_dec k i) as [X|X]; [rewrite H in Ei by lia; congruence|exact X]).
        pose proof (IH (fun a => f (tr i k a)) ltac:(lia)) as X.
        assert (X1 : forall a, (a < n)%nat -> (f (tr i k a) < n)%nat) by (intros a La; apply B; unfold tr; idx).
        assert (X2 : forall a, (k <= a)%nat -> (a < n)%nat -> f (tr i k a) = a) by (intros a La Lb; unfold tr; replace (a =? i)%nat with false by idx; destruct (Nat.eqb_spec a k) as [->|]; [exact Ei|apply H; lia]).
        specialize (X X1 X2). change (chosen (fun a => f (tr i k a))) with (swap_rows i k (chosen f)) in X.
        rewrite (D_swap n D D_ext D_linear D_alternating) in X by (auto; lia).
        rewrite (D_swap n (dt n) (dt_ext n) dt_linear (dt_equal_rows n)) in X by (auto; lia). lra.
Qed.
Lemma unique_form : forall m, D m = dt n m * D identity.
Proof.
  assert (G : forall r f m, (r <= n)%nat -> (forall i, (i < n)%nat -> (f i < n)%nat) ->
    D (fun i j => if Nat.ltb i r then m i j else chosen f i j) = dt n (fun i j => if Nat.ltb i r then m i j else chosen f i j) * D identity).
  { induction r as [|r IH]; intros f m L B.
    - apply (unique_chosen n); auto. intros; lia.
    - set (g := fun i j => if Nat.ltb i r then m i j else chosen f i j).
      assert (E : forall i j, (i < n)%nat -> (j < n)%nat -> (if Nat.ltb i (S r) then m i j else chosen f i j) = with_row r (m r) g i j) by (intros i j Li Lj; unfold with_row, g; idx; reflexivity).
      rewrite (D_ext _ _ E), (dt_ext n _ _ E). rewrite D_linear, dt_linear by lia. rewrite Rmult_comm, <- sum_scale. apply sum_ext. intros j Lj.
      specialize (IH (fun i => if Nat.eqb i r then j else f i) m ltac:(lia)).
      assert (B' : forall i, (i < n)%nat -> ((if Nat.eqb i r then j else f i) < n)%nat) by (intros i Li; destruct (Nat.eqb i r); auto). specialize (IH B').
      assert (E' : forall a b, (a < n)%nat -> (b < n)%nat -> with_row r (unit_row j) g a b = (if Nat.ltb a r then m a b else chosen (fun i => if Nat.eqb i r then j else f i) a b)).
      { intros a b La Lb. unfold with_row, g, unit_row, chosen. destruct (Nat.eqb_spec a r) as [->|]; [rewrite Nat.ltb_irrefl; reflexivity|reflexivity]. }
      rewrite (D_ext _ _ E'), (dt_ext n _ _ E'), IH. ring. }
  intro m. specialize (G n (fun i => i) m (le_n _) ltac:(auto)).
  assert (E : forall i j, (i < n)%nat -> (j < n)%nat -> (if Nat.ltb i n then m i j else chosen (fun i => i) i j) = m i j) by (intros i j Li Lj; replace (i <? n)%nat with true by idx; reflexivity).
  rewrite (D_ext _ _ E), (dt_ext n _ _ E) in G. exact G.
Qed.
End Unique.

Lemma dt_mul : forall n a b, dt n (mul n a b) = dt n a * dt n b.
Proof.
  intros n a b. rewrite (unique_form n (fun m => dt n (mul n m b))).
  - f_equal. apply dt_ext. intros i j Li Lj. unfold mul. rewrite (sum_one _ _ i Li); [unfold identity; rewrite Nat.eqb_refl; ring|]. intros k Lk Nk. unfold identity. replace (i =? k)%nat with false by idx. ring.
  - intros x y H. apply dt_ext. intros i j Li Lj. unfold mul. apply sum_ext. intros k Lk. rewrite H; auto.
  - intros i u m L.
    assert (E : forall v, dt n (mul n (with_row i v m) b) = dt n (with_row i (fun j => sum n (fun k => v k * b k j)) (mul n m b))).
    { intro v. apply dt_ext. intros x y _ _. unfold mul, with_row. destruct (Nat.eqb x i); reflexivity. }
    rewrite E. destruct n as [|n']; [lia|]. rewrite dt_with_row by exact L.
    transitivity (sum (S n') (fun j => sum (S n') (fun k => u k * (b k j * (sgn (i + j) * dt n' (reduce (mul (S n') m b) i j)))))).
    { apply sum_ext. intros j Lj. rewrite Rmult_comm, <- sum_scale. apply sum_ext. intros k Lk. ring. }
    rewrite sum_swap. apply sum_ext. intros k Lk. rewrite sum_scale. f_equal. rewrite E, dt_with_row by exact L. apply sum_ext. intros j Lj. f_equal.
    rewrite (sum_one _ _ k Lk); [unfold unit_row; rewrite Nat.eqb_refl; ring|]. intros l Ll Nl. unfold unit_row. replace (k =? l)%nat with false by idx. ring.
  - intros m i k L1 L2 H. apply (dt_equal_rows n _ i k L1 L2). intros j Lj. unfold mul. apply sum_ext. intros l Ll. rewrite H; auto.
Qed.
