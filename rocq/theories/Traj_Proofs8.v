(** Piecewise cubics through samples. *)
From Coq Require Import List QArith Qabs ZArith Bool Arith Lia Lqa.
From Verif Require Import Base Poly_Model Poly_Spec Poly_Proofs Poly_Proofs2 Poly_Proofs3 Poly_Props Traj_Model Traj_Spec Traj_Proofs Traj_Proofs2 Traj_Proofs3 Traj_Proofs4 Traj_Proofs5 Traj_Proofs6 Traj_Proofs7.
Import ListNotations.

Lemma spaced_pos l i : spaced l -> (S i < List.length l)%nat -> 0 < nth (S i) l 0 - nth i l 0.
Proof. intros S Hi. pose proof eps_pos. specialize (S i Hi). lra. Qed.

(** Values and derivatives at the breaks, from those of the segments. *)
Lemma through p R C ys : sound p R C -> (forall i r c, (i < List.length (polys p))%nat -> (r < R)%nat -> (c < C)%nat ->
   curve (entry p i r c) 0 == sampled ys i r c /\ curve (entry p i r c) (nth (S i) (breaks p) 0 - nth i (breaks p) 0) == sampled ys (S i) r c) ->
  passes_through p ys R C /\ smooth p R C 0.
Proof.
  intros So H. split.
  - intros i Hi. destruct (value_total p R C (nth i (breaks p) 0) So) as (M & V & MR & MC). exists M. split; [auto|]. split; [auto|]. split; [auto|]. intros r c Hr Hc.
    apply (knot p R C 0 (fun i => sampled ys i r c) r c So Hr Hc); auto. intros k Hk. destruct (H k r c Hk Hr Hc) as [A B]. exists (curve (entry p k r c)). split; [constructor; reflexivity|]. split; auto.
  - intros i r c Hi Hr Hc. destruct (H i r c ltac:(lia) Hr Hc) as [_ A]. destruct (H (S i) r c Hi Hr Hc) as [B _]. exists (curve (entry p i r c)), (curve (entry p (S i) r c)). split; [constructor; reflexivity|]. split; [constructor; reflexivity|]. rewrite A, B. reflexivity.
Qed.
Lemma slopes p R C (d : nat -> nat -> nat -> Q) : sound p R C -> (forall i r c, (i < List.length (polys p))%nat -> (r < R)%nat -> (c < C)%nat ->
   exists g, derives 1 (curve (entry p i r c)) g /\ g 0 == d i r c /\ g (nth (S i) (breaks p) 0 - nth i (breaks p) 0) == d (S i) r c) ->
  (forall i, (i < List.length (breaks p))%nat -> exists M, EvalDerivative p (nth i (breaks p) 0) 1 = Ok M /\ is_matrix M R C (d i)) /\ smooth p R C 1.
Proof.
  intros So H. split.
  - intros i Hi. destruct (eval_works p R C (nth i (breaks p) 0) 1 So) as (M & V & MR & MC & _). exists M. split; [auto|]. split; [auto|]. split; [auto|]. intros r c Hr Hc.
    apply (knot p R C 1 (fun i => d i r c) r c So Hr Hc); auto. intros k Hk. destruct (H k r c Hk Hr Hc) as (g & D & A & B). exists g. split; [auto|]. split; auto.
  - intros i r c Hi Hr Hc. destruct (H i r c ltac:(lia) Hr Hc) as (g & Dg & _ & A). destruct (H (S i) r c Hi Hr Hc) as (h & Dh & B & _). exists g, h. split; [auto|]. split; [auto|]. rewrite A, B. reflexivity.
Qed.

(** Between two breaks the value is the segment's, also at its right end, if the pieces join. *)
Lemma piece_value p R C i t r c M : sound p R C -> smooth p R C 0 -> (r < R)%nat -> (c < C)%nat -> (i < List.length (polys p))%nat -> nth i (breaks p) 0 <= t <= nth (S i) (breaks p) 0 -> tvalue p t = Ok M ->
  m_at M r c == curve (entry p i r c) (t - nth i (breaks p) 0).
Proof.
  intros So Sm Hr Hc Hi Ht V. pose proof (len_breaks p R C So) as LB. assert (RI : rising (breaks p)) by apply So. destruct (Qlt_le_dec t (nth (S i) (breaks p) 0)) as [Lt|Ge].
  - apply (value_at p R C t M i So V); auto. split; [lia|]. split; [lra|]. left. auto.
  - assert (Et : t == nth (S i) (breaks p) 0) by lra. destruct (Nat.eq_dec (S i) (List.length (polys p))) as [E|N].
    + apply (value_at p R C t M i So V); auto. split; [lia|]. split; [lra|]. right. split; [lia|auto].
    + rewrite (value_at p R C t M (S i) So V); auto.
      * destruct (Sm i r c ltac:(lia) Hr Hc) as (f & g & Df & Dg & J). inversion Df as [? ? Hf|]; subst. inversion Dg as [? ? Hg|]; subst.
        rewrite (curve_proper _ _ 0) by lra. rewrite (Hg 0), <- J, <- (Hf _). apply curve_proper. lra.
      * split; [lia|]. split; [lra|]. left. specialize (RI (S i) ltac:(lia)). lra.
Qed.

Lemma cubic_traj p bs R C ys d : sound p R C -> breaks p = bs -> spaced bs ->
  (forall i r c, (i < List.length (polys p))%nat -> (r < R)%nat -> (c < C)%nat -> entry p i r c = poly_coefs (cubic_at (nth (S i) bs 0 - nth i bs 0) (sampled ys i r c) (sampled ys (S i) r c) (d i r c) (d (S i) r c))) ->
  passes_through p ys R C /\ smooth p R C 0 /\ smooth p R C 1 /\ of_order p R C 4 /\ (forall i, (i < List.length (breaks p))%nat -> exists M, EvalDerivative p (nth i (breaks p) 0) 1 = Ok M /\ is_matrix M R C (d i)).
Proof.
  intros So B Sp E. pose proof (len_breaks p R C So) as LB.
  assert (P : forall i, (i < List.length (polys p))%nat -> ~ nth (S i) bs 0 - nth i bs 0 == 0) by (intros i Hi; pose proof (spaced_pos bs i Sp ltac:(rewrite <- B; lia)); lra).
  destruct (through p R C ys So) as [T1 T2].
  { intros i r c Hi Hr Hc. rewrite (E i r c Hi Hr Hc), B. destruct (cubic_values _ (sampled ys i r c) (sampled ys (S i) r c) (d i r c) (d (S i) r c) (P i Hi)) as (V0 & V1 & _). auto. }
  destruct (slopes p R C d So) as [D1 D2].
  { intros i r c Hi Hr Hc. rewrite (E i r c Hi Hr Hc), B. destruct (cubic_values _ (sampled ys i r c) (sampled ys (S i) r c) (d i r c) (d (S i) r c) (P i Hi)) as (_ & _ & g & Dg & G0 & G1). exists g. auto. }
  split; [auto|]. split; [auto|]. split; [auto|]. split; [|auto]. intros i r c Hi Hr Hc. rewrite (E i r c Hi Hr Hc). eexists. split; [|apply from_coefficients]. reflexivity.
Qed.

(** Coefficients that satisfy the spline equations. *)
Lemma spline_traj p bs R C ys (x : nat -> nat -> nat -> Q) : sound p R C -> breaks p = bs -> spaced bs ->
  (forall i r c, (i < List.length (polys p))%nat -> (r < R)%nat -> (c < C)%nat -> entry p i r c = poly_coefs [sampled ys i r c; x r c (3 * i)%nat; x r c (3 * i + 1)%nat; x r c (3 * i + 2)%nat]) ->
  (forall r c, (r < R)%nat -> (c < C)%nat -> forall i, (S i < List.length bs)%nat -> segment_equations bs (fun i => sampled ys i r c) (x r c) i) ->
  passes_through p ys R C /\ smooth p R C 0 /\ smooth p R C 1 /\ smooth p R C 2 /\ of_order p R C 4.
Proof.
  intros So B Sp E Q. pose proof (len_breaks p R C So) as LB.
  destruct (through p R C ys So) as [T1 T2].
  { intros i r c Hi Hr Hc. rewrite (E i r c Hi Hr Hc), B. destruct (Q r c Hr Hc i ltac:(rewrite <- B; lia)) as (Q1 & _). cbv beta in Q1. destruct (from_coefficients [sampled ys i r c; x r c (3 * i)%nat; x r c (3 * i + 1)%nat; x r c (3 * i + 2)%nat]) as (_ & _ & F).
    rewrite !F. cbn [horner]. split; [ring|]. setoid_replace (sampled ys (S i) r c) with (sampled ys i r c + (sampled ys (S i) r c - sampled ys i r c)) by ring. rewrite <- Q1. ring. }
  split; [auto|]. split; [auto|]. split; [|split].
  - intros i r c Hi Hr Hc. destruct (Q r c Hr Hc i ltac:(rewrite <- B; lia)) as (_ & Q2). destruct (Q2 ltac:(rewrite <- B; lia)) as (Q3 & _). unfold joins. rewrite (E i r c ltac:(lia) Hr Hc), (E (S i) r c Hi Hr Hc).
    eexists _, _. split; [apply derives_curve, derives_horner|]. split; [apply derives_curve, derives_horner|]. cbn [horner]. rewrite B. rewrite Qmult_0_l, Qplus_0_r. rewrite <- Q3. ring.
  - intros i r c Hi Hr Hc. destruct (Q r c Hr Hc i ltac:(rewrite <- B; lia)) as (_ & Q2). destruct (Q2 ltac:(rewrite <- B; lia)) as (_ & Q3). unfold joins. rewrite (E i r c ltac:(lia) Hr Hc), (E (S i) r c Hi Hr Hc).
    eexists _, _. split; [apply derives_curve, derives_horner|]. split; [apply derives_curve, derives_horner|]. cbn [horner]. rewrite B. rewrite Qmult_0_l, Qplus_0_r. rewrite <- Q3. ring.
  - intros i r c Hi Hr Hc. rewrite (E i r c Hi Hr Hc). eexists. split; [|apply from_coefficients]. reflexivity.
Qed.
(** k-th derivative at the ends of the trajectory. *)
Lemma at_start p R C k M r c g : sound p R C -> EvalDerivative p (first_break p) k = Ok M -> (r < R)%nat -> (c < C)%nat -> derives k (curve (entry p 0 r c)) g -> m_at M r c == g 0.
Proof.
  intros So V Hr Hc D. pose proof (len_breaks p R C So) as LB. pose proof (polys_pos p R C So) as PP. pose proof (first_le_last p R C So).
  assert (E0 : first_break p = nth 0 (breaks p) 0) by (unfold first_break; apply hd_nth).
  destruct (sound_entry p R C 0 r c So PP Hr Hc) as [G U]. pose proof (dsum_of_curve (entry p 0 r c) k G U) as D'. rewrite (eval_derives p R C _ k M So V 0%nat (first_break p)) with (g := dsum k (p_monos (entry p 0 r c))); auto.
  - rewrite (derives_unique k _ _ _ _ (fun x => Qeq_refl _) D D' 0). apply dsum_proper. rewrite E0. ring.
  - apply closest_self. lra.
  - rewrite E0. apply span_break; [apply So|lia].
Qed.
