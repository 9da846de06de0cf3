(** The systems behind clamped splines and interpolating polynomials have solutions. *)
From Coq Require Import List QArith Qabs ZArith Bool Arith Lia Lqa.
From Verif Require Import Base Poly_Model Poly_Spec Traj_Model Traj_Spec Traj_Proofs Traj_Proofs2 Traj_Proofs4 Traj_Proofs6 Traj_Proofs7 Traj_Proofs8.
Import ListNotations.

(** Slopes by shooting: the second one is a parameter. *)
Section shoot.
Variable h w : nat -> Q.
Hypothesis Hh : forall i, 0 < h i.
Fixpoint shoot (a s : Q) (k : nat) : Q * Q :=
  match k with
  | O => (a, s)
  | S j => let (u, v) := shoot a s j in (v, h (S j) * (w (S j) - u / h j - 2 * (1 / h j + 1 / h (S j)) * v))
  end.
Fixpoint gain (k : nat) : Q * Q :=
  match k with
  | O => (0, 1)
  | S j => let (u, v) := gain j in (v, h (S j) * (- u / h j - 2 * (1 / h j + 1 / h (S j)) * v))
  end.
Lemma shoot_affine a s k : fst (shoot a s k) == fst (shoot a 0 k) + s * fst (gain k) /\ snd (shoot a s k) == snd (shoot a 0 k) + s * snd (gain k).
Proof.
  induction k as [|j [A B]]; [cbn; split; ring|]. cbn [shoot gain]. destruct (shoot a s j) as [u v]. destruct (shoot a 0 j) as [u0 v0]. destruct (gain j) as [g1 g2]. cbn [fst snd] in *.
  split; [exact B|]. rewrite A, B. pose proof (Hh j). pose proof (Hh (S j)). field. split; lra.
Qed.
Lemma gain_grows k : (fst (gain k) <= 0 /\ - fst (gain k) < snd (gain k)) \/ (0 <= fst (gain k) /\ snd (gain k) < - fst (gain k)).
Proof.
  induction k as [|j IH]; [left; cbn; lra|]. cbn [gain]. destruct (gain j) as [u v]. cbn [fst snd] in *. pose proof (Hh j) as P. pose proof (Hh (S j)) as P'.
  assert (E : h (S j) * (- u / h j - 2 * (1 / h j + 1 / h (S j)) * v) == - (2 * v) - h (S j) / h j * (u + 2 * v)) by (field; split; lra). rewrite E.
  assert (D : 0 < h (S j) / h j) by (apply Qlt_shift_div_l; lra). set (q := h (S j) / h j) in *. clearbody q. destruct IH as [[A B]|[A B]].
  - right. split; [lra|]. assert (0 < q * (u + 2 * v)) by (apply Qmult_lt_0_compat; lra). lra.
  - left. split; [lra|]. assert (0 < q * (- (u + 2 * v))) by (apply Qmult_lt_0_compat; lra). lra.
Qed.
Lemma shoot_link a s k : fst (shoot a s (S k)) = snd (shoot a s k).
Proof. cbn [shoot]. destruct (shoot a s k). reflexivity. Qed.
(** Given both end slopes, the tridiagonal equations have a solution. *)
Lemma slopes_exist a b n : exists d, d 0%nat == a /\ d (S n) == b /\
  forall k, (k < n)%nat -> d k / h k + 2 * (1 / h k + 1 / h (S k)) * d (S k) + d (S (S k)) / h (S k) == w (S k).
Proof.
  set (s := (b - snd (shoot a 0 n)) / snd (gain n)). exists (fun k => match k with O => a | S j => snd (shoot a s j) end). split; [reflexivity|]. split.
  - rewrite (proj2 (shoot_affine a s n)). unfold s. destruct (gain_grows n) as [[A B]|[A B]]; field; lra.
  - intros k _. assert (X : match k with O => a | S j => snd (shoot a s j) end = fst (shoot a s k)) by (destruct k; [reflexivity|rewrite shoot_link; reflexivity]). rewrite X.
    cbn [shoot]. destruct (shoot a s k) as [u v]. cbn [fst snd]. pose proof (Hh k). pose proof (Hh (S k)). field. split; lra.
Qed.
End shoot.

Definition spread (l : nat -> Q * Q * Q) (j : nat) : Q :=
  match (j mod 3)%nat with O => fst (fst (l (j / 3)%nat)) | S O => snd (fst (l (j / 3)%nat)) | _ => snd (l (j / 3)%nat) end.
Lemma spread_at l i : spread l (3 * i) = fst (fst (l i)) /\ spread l (3 * i + 1) = snd (fst (l i)) /\ spread l (3 * i + 2) = snd (l i).
Proof.
  unfold spread. rewrite !(Nat.mul_comm 3 i). replace ((i * 3) mod 3)%nat with 0%nat by (rewrite Nat.mod_mul; lia). replace (i * 3 / 3)%nat with i by (rewrite Nat.div_mul; lia).
  replace ((i * 3 + 1) mod 3)%nat with 1%nat by (rewrite Nat.add_comm, Nat.mod_add; [reflexivity|lia]). replace ((i * 3 + 1) / 3)%nat with i by (rewrite Nat.div_add_l; [cbn; lia|lia]).
  replace ((i * 3 + 2) mod 3)%nat with 2%nat by (rewrite Nat.add_comm, Nat.mod_add; [reflexivity|lia]). replace ((i * 3 + 2) / 3)%nat with i by (rewrite Nat.div_add_l; [cbn; lia|lia]). auto.
Qed.
Lemma clamped_exists bs y a b : spaced bs -> (2 <= List.length bs)%nat -> exists x, solves (clamped_system bs y a b) x.
Proof.
  intros Sp L. set (h := fun i => if (S i <? List.length bs)%nat then nth (S i) bs 0 - nth i bs 0 else 1).
  assert (Hp : forall i, 0 < h i) by (intros i; unfold h; destruct (Nat.ltb_spec (S i) (List.length bs)); [apply spaced_pos; auto|lra]).
  assert (He : forall i, (S i < List.length bs)%nat -> h i = nth (S i) bs 0 - nth i bs 0) by (intros i Hi; unfold h; destruct (Nat.ltb_spec (S i) (List.length bs)); [reflexivity|lia]).
  set (sl := fun i => (y (S i) - y i) / h i). set (w := fun i => 3 * (sl (i - 1)%nat / h (i - 1)%nat + sl i / h i)).
  destruct (slopes_exist h w Hp a b (List.length bs - 2)) as (d & D0 & D1 & D).
  set (l := fun i => (d i, (3 * sl i - 2 * d i - d (S i)) / h i, (d i + d (S i) - 2 * sl i) / (h i * h i))). exists (spread l).
  apply clamped_ok; [auto|]. split; [|split].
  - intros i Hi. unfold segment_equations. cbv zeta. rewrite <- (He i Hi). destruct (spread_at l i) as (-> & -> & ->). pose proof (Hp i) as P. split.
    + unfold l, sl. cbn [fst snd]. field. lra.
    + intros Hi2. destruct (spread_at l (S i)) as (-> & -> & _). unfold l. cbn [fst snd]. pose proof (Hp (S i)) as P'. split; [field; lra|].
      specialize (D i ltac:(lia)). unfold w in D. replace (S i - 1)%nat with i in D by lia. 
      assert (X : 2 * ((3 * sl i - 2 * d i - d (S i)) / h i) + 6 * h i * ((d i + d (S i) - 2 * sl i) / (h i * h i)) == 2 * (d i / h i + 2 * d (S i) / h i - 3 * (sl i / h i))) by (field; lra). rewrite X.
      assert (Y : 2 * ((3 * sl (S i) - 2 * d (S i) - d (S (S i))) / h (S i)) == 2 * (3 * (sl (S i) / h (S i)) - 2 * d (S i) / h (S i) - d (S (S i)) / h (S i))) by (field; lra). rewrite Y.
      assert (Z : d i / h i + 2 * d (S i) / h i + 2 * d (S i) / h (S i) + d (S (S i)) / h (S i) == 3 * (sl i / h i + sl (S i) / h (S i))) by (rewrite <- D; field; split; lra). lra.
  - exact D0.
  - cbv zeta. set (k := (List.length bs - 2)%nat) in *. replace (List.length bs - 1)%nat with (S k) by lia. rewrite <- (He k) by lia. destruct (spread_at l k) as (-> & -> & ->). unfold l. cbn [fst snd]. pose proof (Hp k). rewrite <- D1. field. lra.
Qed.

(** Interpolation by one polynomial. *)
Fixpoint mulx (a prev : Q) (l : list Q) : list Q := match l with [] => [prev] | c :: r => (prev - a * c) :: mulx a c r end.
Lemma mulx_value a l x : forall prev, horner (mulx a prev l) x == prev + (x - a) * horner l x.
Proof. induction l as [|c r IH]; intros prev; cbn [mulx horner]; [ring|]. rewrite IH. ring. Qed.
Lemma mulx_len a l : forall prev, List.length (mulx a prev l) = S (List.length l).
Proof. induction l as [|c r IH]; intros prev; cbn [mulx List.length]; [reflexivity|]. rewrite IH. reflexivity. Qed.
Lemma interpolant ts : forall ys, List.length ys = List.length ts -> (forall i j, (i < j < List.length ts)%nat -> ~ nth i ts 0 == nth j ts 0) ->
  exists l, List.length l = List.length ts /\ forall i, (i < List.length ts)%nat -> horner l (nth i ts 0) == nth i ys 0.
Proof.
  induction ts as [|t r IH]; intros ys L D; [exists []; split; [reflexivity|intros i Hi; simpl in Hi; lia]|]. destruct ys as [|y q]; [discriminate|]. injection L as L.
  destruct (IH (map (fun ty => (snd ty - y) / (fst ty - t)) (combine r q))) as (l & Ll & Hl).
  - rewrite map_length, combine_length. lia.
  - intros i j Hij. apply (D (S i) (S j)). cbn [List.length]. lia.
  - exists (mulx t y l). split; [rewrite mulx_len; cbn; lia|]. intros [|i] Hi; cbn [nth]; rewrite mulx_value; [ring|]. cbn [List.length] in Hi. rewrite Hl by lia.
    rewrite (nth_indep (map (fun ty => (snd ty - y) / (fst ty - t)) (combine r q)) 0 ((fun ty => (snd ty - y) / (fst ty - t)) (0, 0))) by (rewrite map_length, combine_length; lia). rewrite (map_nth (fun ty => (snd ty - y) / (fst ty - t))), combine_nth by lia. cbn [fst snd].
    pose proof (D 0%nat (S i) ltac:(cbn [List.length]; lia)) as N. cbn [nth] in N. field. intros X. apply N. lra.
Qed.
Lemma vandermonde_exists ts b t0 : List.length b = List.length ts -> rising ts -> exists x, solves_dense (map (fun t => vandermonde_row (List.length ts) 1 (t - t0)) ts) x b.
Proof.
  intros L Ri. destruct (interpolant (map (fun t => t - t0) ts) b) as (l & Ll & Hl).
  - rewrite map_length. auto.
  - intros i j Hij. rewrite map_length in Hij. rewrite !nth_map_q by lia. pose proof (rising_lt ts Ri i j ltac:(lia)). lra.
  - rewrite map_length in Ll, Hl. exists l. split; [lia|]. split; [rewrite map_length; lia|]. intros i Hi. rewrite L in Hi. specialize (Hl i Hi). rewrite nth_map_q in Hl by auto.
    rewrite (nth_indep (map (fun t => vandermonde_row (List.length ts) 1 (t - t0)) ts) [] ((fun t => vandermonde_row (List.length ts) 1 (t - t0)) 0)) by (rewrite map_length; auto). rewrite (map_nth (fun t => vandermonde_row (List.length ts) 1 (t - t0))), <- Ll, vandermonde_dot, Hl. ring.
Qed.
