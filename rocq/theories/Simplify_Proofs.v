(** Proofs for C48 and C49. *)
From Coq Require Import List QArith Bool Arith Lia Lqa Permutation.
From Verif Require Import Base Maps Mesh_Model Mesh_Spec Mesh_Proofs Simplify_Model Simplify_Spec.
Import ListNotations.
Local Open Scope nat_scope.

(** ** Douglas-Peucker *)
Lemma sq_nonneg (x : Q) : (0 <= x * x)%Q.
Proof. destruct (Qlt_le_dec x 0); nra. Qed.
Lemma sq_zero (x : Q) : (x * x == 0)%Q -> (x == 0)%Q.
Proof. intro H. destruct (Qmult_integral _ _ H); auto. Qed.
Lemma sum_sq (x y z : Q) : (x * x + y * y + z * z == 0)%Q -> (x == 0 /\ y == 0 /\ z == 0)%Q.
Proof. intro H. pose proof (sq_nonneg x). pose proof (sq_nonneg y). pose proof (sq_nonneg z). repeat split; apply sq_zero; lra. Qed.
Lemma same_zero a b : (vdot (vsub b a) (vsub b a) == 0)%Q -> same a b.
Proof. unfold vdot, vsub, same, vx, vy, vz. cbn. intro H. apply sum_sq in H. destruct H as (A & B & C). repeat split; lra. Qed.
Lemma line_within tol a b q d : (0 <= tol)%Q -> DistanceToALine a (vsub b a) q = Some d -> (d <= tol * tol)%Q -> within tol a b q.
Proof.
  unfold DistanceToALine. intros T D L. destruct (Qeq_bool (vdot (vsub b a) (vsub b a)) 0) eqn:Z; [discriminate|]. apply Qeq_bool_neq in Z. inversion D as [Hd]. clear D.
  set (rr := vdot (vsub b a) (vsub b a)) in *. set (rd := vdot (vsub b a) (vsub q a)) in *. exists (rd / rr)%Q.
  assert (E : (dist2 q (on_line a b (rd / rr)) == d)%Q).
  { rewrite <- Hd. unfold dist2, on_line, vx, vy, vz. cbn. fold (vx a) (vy a) (vz a) (vx b) (vy b) (vz b) (vx q) (vy q) (vz q).
    unfold rd, rr, vdot, vsub, vx, vy, vz in *. cbn in *. field. exact Z. }
  rewrite E. exact L.
Qed.
Lemma line_coincident {E} (pos : E -> vec) a b e : line_distance pos a b e = None -> same (pos a) (pos b).
Proof.
  unfold line_distance, DistanceToALine. destruct (Qeq_bool _ 0) eqn:Z; [|discriminate]. intros _. apply Qeq_bool_eq in Z. apply same_zero. exact Z.
Qed.
Lemma line_none {E} (pos : E -> vec) a b e e' : line_distance pos a b e = None -> line_distance pos a b e' = None.
Proof. unfold line_distance, DistanceToALine. destruct (Qeq_bool _ 0); auto. discriminate. Qed.

Section DP.
Context {E : Type}.
Variable pos : E -> vec.
Lemma max_element_spec a b best at_ i l (pre : list E) : length pre = i -> nth_error pre at_ = Some best -> (forall x, In x pre -> dlt (line_distance pos a b best) (line_distance pos a b x) = false) ->
  let k := max_element pos a b best at_ i l in k < length (pre ++ l) /\
  exists y, nth_error (pre ++ l) k = Some y /\ forall x, In x (pre ++ l) -> dlt (line_distance pos a b y) (line_distance pos a b x) = false.
Proof.
  revert best at_ i pre. induction l as [|x l IH]; intros best at_ i pre L N M; cbn.
  - rewrite app_nil_r. split; [apply nth_error_Some; congruence|]. eauto.
  - replace (pre ++ x :: l) with ((pre ++ [x]) ++ l) by (rewrite <- app_assoc; auto).
    destruct (dlt (line_distance pos a b best) (line_distance pos a b x)) eqn:D; apply IH.
    + rewrite app_length. cbn. lia.
    + rewrite nth_error_app2 by lia. subst. rewrite Nat.sub_diag. auto.
    + intros y I. apply in_app_iff in I. destruct I as [I|[<-|[]]]; [|destruct (line_distance pos a b x); cbn; auto; qcases; auto; lra].
      specialize (M y I). unfold dlt in *. destruct (line_distance pos a b best), (line_distance pos a b x), (line_distance pos a b y); auto; try discriminate. qcases; auto; try discriminate; lra.
    + rewrite app_length. cbn. lia.
    + rewrite nth_error_app1; auto. apply nth_error_Some. congruence.
    + intros y I. apply in_app_iff in I. destruct I as [I|[<-|[]]]; auto.
Qed.
Definition dropped_ok (tol : Q) (x y : E) (mid : list E) : Prop := forall e, In e mid -> within tol (pos x) (pos y) (pos e) \/ same (pos x) (pos y).
Lemma covered_last ok (l out : list E) d : covered ok l out -> last out d = last l d.
Proof.
  induction 1 as [x|x y mid l out H C IH]; auto. change (last (x :: y :: out) d) with (last (y :: out) d). rewrite IH.
  change (x :: mid ++ y :: l) with ((x :: mid) ++ y :: l). clear. generalize (x :: mid) as m. induction m as [|z m IH]; auto. cbn [app]. destruct (m ++ y :: l) eqn:E0; [destruct m; discriminate|]. exact IH.
Qed.
Lemma covered_head ok (l out : list E) : covered ok l out -> exists x l' out', l = x :: l' /\ out = x :: out'.
Proof. destruct 1; eauto. Qed.
Lemma covered_app (ok : E -> E -> list E -> Prop) (l out l' out' : list E) : (forall x y, ok x y []) -> covered ok l out -> covered ok l' out' -> covered ok (l ++ l') (out ++ out').
Proof.
  intros Z C C'. induction C as [x|x y mid l out H C IH].
  - destruct (covered_head _ _ _ C') as (y & m & o & -> & ->). cbn. apply (cov_keep ok x y []); auto.
  - cbn. rewrite <- app_assoc. cbn in *. apply cov_keep; auto.
Qed.
Lemma dp_covered fuel tol l : (0 <= tol)%Q -> l <> [] -> length l <= fuel -> exists out, douglas_peucker pos fuel tol l = Ok out /\ covered (dropped_ok tol) l out.
Proof.
  intro T. revert l. induction fuel as [|fuel IH]; intros l N L; [destruct l; [congruence|cbn in L; lia]|].
  destruct l as [|first l']; [congruence|]. destruct l' as [|second l'']; [exists [first]; split; [reflexivity|constructor]|].
  cbn [douglas_peucker]. set (l' := second :: l'') in *.
  assert (Hl : l' <> []) by discriminate. set (lst := last l' first).
  assert (El : l' = removelast l' ++ [lst]) by (apply app_removelast_last; auto).
  destruct (max_element_spec first lst first 0 1 (removelast l') [first]) as (Lk & y & Ny & My); auto.
  { intros x [<-|[]]. destruct (line_distance pos first lst first); cbn; auto. qcases; auto; lra. }
  set (k := max_element pos first lst first 0 1 (removelast l')) in *. cbn [app length] in Lk, Ny, My.
  assert (Len : length l' = S (length (removelast l'))) by (rewrite El at 1; rewrite app_length; cbn; lia).
  assert (Nk : nth k (first :: l') first = y).
  { apply nth_error_nth. rewrite El. change (first :: removelast l' ++ [lst]) with ((first :: removelast l') ++ [lst]). rewrite nth_error_app1; auto. }
  rewrite Nk. destruct (dgt (line_distance pos first lst y) tol) eqn:D.
  - destruct (IH (firstn (S k) (first :: l'))) as (o1 & E1 & C1).
    { cbn. discriminate. }
    { rewrite firstn_length. cbn [length] in *. lia. }
    destruct (IH (skipn (S k) (first :: l'))) as (o2 & E2 & C2).
    { intro X. apply (f_equal (@length E)) in X. rewrite skipn_length in X. cbn [length] in *. lia. }
    { rewrite skipn_length. cbn [length] in *. lia. }
    exists (o1 ++ o2). rewrite E1, E2. split; [reflexivity|]. rewrite <- (firstn_skipn (S k) (first :: l')) at 1. apply covered_app; auto. intros a b e [].
  - exists [first; lst]. split; [reflexivity|]. rewrite El. apply cov_keep; [|constructor]. intros e I.
    assert (X : dlt (line_distance pos first lst y) (line_distance pos first lst e) = false) by (apply My; right; auto).
    destruct (line_distance pos first lst y) as [dy|] eqn:Dy.
    + destruct (line_distance pos first lst e) as [de|] eqn:De; [|right; eapply line_coincident; eauto]. left. cbn in X, D. apply orb_false_iff in D. destruct D as [_ D].
      apply Qltb_false in X, D. unfold line_distance in De. eapply line_within; eauto. lra.
    + right. eapply line_coincident; eauto.
Qed.
Lemma dp_fuel fuel tol l : l <> [] -> length l <= fuel -> exists out, douglas_peucker pos fuel tol l = Ok out.
Proof.
  revert l. induction fuel as [|fuel IH]; intros l N L; [destruct l; [congruence|cbn in L; lia]|].
  destruct l as [|first l']; [congruence|]. destruct l' as [|second l'']; [exists [first]; reflexivity|].
  cbn [douglas_peucker]. set (l' := second :: l'') in *.
  assert (Hl : l' <> []) by discriminate. set (lst := last l' first).
  assert (El : l' = removelast l' ++ [lst]) by (apply app_removelast_last; auto).
  destruct (max_element_spec first lst first 0 1 (removelast l') [first]) as (Lk & y & Ny & My); auto.
  { intros x [<-|[]]. destruct (line_distance pos first lst first); cbn; auto. qcases; auto; lra. }
  set (k := max_element pos first lst first 0 1 (removelast l')) in *. cbn [app length] in Lk, Ny, My.
  assert (Len : length l' = S (length (removelast l'))) by (rewrite El at 1; rewrite app_length; cbn; lia).
  destruct (dgt _ tol); [|eauto].
  destruct (IH (firstn (S k) (first :: l'))) as (o1 & E1). { cbn. discriminate. } { rewrite firstn_length. cbn [length] in *. lia. }
  destruct (IH (skipn (S k) (first :: l'))) as (o2 & E2). { intro X. apply (f_equal (@length E)) in X. rewrite skipn_length in X. cbn [length] in *. lia. } { rewrite skipn_length. cbn [length] in *. lia. }
  rewrite E1, E2. cbn. eauto.
Qed.
End DP.
