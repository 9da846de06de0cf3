(** Proofs for C50 and C62: the optimized mesh, stripes and arrows. *)
From Coq Require Import List QArith Qround Qabs Lqa Bool Arith ZArith Lia.
From Verif Require Import Base RoadMesh_Model RoadMesh_Spec RoadMesh_Proofs.
Import ListNotations.
Local Open Scope Q_scope.

Section Optimized.
Variable elevation : Q -> Q -> Q.
Variable grid : Q.
Variable G : 0 < grid.
Variable l : lane.
Variable seg : bool.
Variable B : proper (bounds l seg).
Notation lo s := (rmin (bounds l seg s)).
Notation hi s := (rmax (bounds l seg s)).

Lemma triangles_apart s0 s1 a0 b0 a1 b1 h0 h1 h2 h3 h4 h5 : s0 < s1 -> a0 <= b0 -> a1 <= b1 -> a0 < b0 \/ a1 < b1 -> forall s r,
  inside_face [(s0, b0, h0); (s0, a0, h1); (s1, b1, h2)] s r -> ~ inside_face [(s0, a0, h3); (s1, a1, h4); (s1, b1, h5)] s r.
Proof.
  intros L A0 A1 W s r (ws & P & Lw & T & S0 & R) (us & P' & Lu & T' & S0' & R').
  destruct ws as [|w0 [|w1 [|w2 [|]]]]; cbn in Lw; try discriminate. destruct us as [|u0 [|u1 [|u2 [|]]]]; cbn in Lu; try discriminate.
  inversion P as [|? ? W0 Pa]; subst. inversion Pa as [|? ? W1 Pb]; subst. inversion Pb as [|? ? W2 _]; subst.
  inversion P' as [|? ? U0 Pc]; subst. inversion Pc as [|? ? U1 Pd]; subst. inversion Pd as [|? ? U2 _]; subst.
  unfold s_of, r_of in *. cbn [total mean map fst snd] in *.
  assert (E : w2 * (s1 - s0) == (u1 + u2) * (s1 - s0)).
  { assert (X0 : w0 + w1 == 1 - w2) by lra. assert (X1 : u0 == 1 - u1 - u2) by lra.
    assert (Y0 : s == (w0 + w1) * s0 + w2 * s1) by (rewrite <- S0; ring). assert (Y1 : s == u0 * s0 + (u1 + u2) * s1) by (rewrite <- S0'; ring).
    rewrite X0 in Y0. rewrite X1 in Y1. rewrite Y0 in Y1. setoid_replace (w2 * (s1 - s0)) with ((1 - w2) * s0 + w2 * s1 - s0) by ring. rewrite Y1. ring. }
  assert (E2 : w2 == u1 + u2) by (apply (Qmult_inj_r _ _ (s1 - s0)); auto; lra).
  assert (E0 : u0 == w0 + w1) by lra.
  assert (Z : w0 * (b0 - a0) + u1 * (b1 - a1) == 0).
  { setoid_replace (w0 * (b0 - a0) + u1 * (b1 - a1)) with ((w0 * b0 + (w1 * a0 + (w2 * b1 + 0))) - ((w0 + w1) * a0 + (u1 * a1 + ((w2 - u1) * b1 + 0)))) by ring.
    setoid_replace (w2 - u1) with u2 by lra. rewrite <- E0, R, R'. ring. }
  assert (0 <= w0 * (b0 - a0)) by (apply Qmult_le_0_compat; lra). assert (0 <= u1 * (b1 - a1)) by (apply Qmult_le_0_compat; lra).
  destruct W as [W|W]; [assert (0 < w0 * (b0 - a0)) by nra|assert (0 < u1 * (b1 - a1)) by nra]; lra.
Qed.
Definition ok_face (from : Q) (f : face) : Prop := s_between from (length_ l) f /\
  forall v, In v f -> h_of v = elevation (s_of v) (r_of v) /\ from <= s_of v <= length_ l /\ lo (s_of v) <= r_of v <= hi (s_of v).
Lemma optimized_loop_spec fuel : forall s0, 0 <= s0 -> length_ l <= s0 + qn fuel * grid ->
  exists fs, optimized_loop fuel l grid seg elevation s0 = Ok fs /\ (forall f, In f fs -> ok_face s0 f) /\ ((forall s, lo s < hi s) -> no_overlap fs) /\
  (forall s, s0 <= s <= length_ l -> s0 < length_ l -> exists a b t, s0 <= a < b /\ b <= length_ l /\ 0 <= t <= 1 /\ s == between t a b /\
     forall r, between t (lo a) (lo b) <= r <= between t (hi a) (hi b) -> exists f, In f fs /\ in_face f s r).
Proof.
  induction fuel as [|fuel IH]; intros s0 S0 F.
  - rewrite qn_0 in F. cbn [optimized_loop]. destruct (Qltb_spec s0 (length_ l)); [lra|]. exists []. split; auto. split; [intros f []|]. split; [constructor|]. intros. lra.
  - cbn [optimized_loop]. destruct (Qltb_spec s0 (length_ l)) as [H|H]; [|exists []; split; auto; split; [intros f []|]; split; [constructor|]; intros; lra].
    destruct (sample_step_spec l s0 grid G) as (inc & -> & I1 & I2); [lra|]. cbn [obind]. set (s1 := s0 + inc).
    assert (N : s0 < s1 <= length_ l /\ (s1 == length_ l \/ s0 + grid <= s1)) by (unfold cmin in I1; subst s1; qcases; repeat split; lra).
    destruct N as [[N0 N1] N3]. rewrite qn_S in F. destruct (IH s1) as (fs & -> & P & N & C); [lra|pose proof (qn_nonneg fuel); destruct N3; nra|]. cbn [obind].
    pose proof (B s0) as B0. pose proof (B s1) as B1. exists (two_triangles l seg elevation s0 s1 ++ fs). split; auto.
    assert (T : forall f, In f (two_triangles l seg elevation s0 s1) -> s_between s0 s1 f /\ forall v, In v f -> h_of v = elevation (s_of v) (r_of v) /\ s0 <= s_of v <= length_ l /\ lo (s_of v) <= r_of v <= hi (s_of v)).
    { intros f [<-|[<-|[]]]; (split; [apply s_between_intro; unfold vertex, s_of; cbn [fst snd]; [repeat constructor; cbn; lra| |left; cbn; lra]|]).
      - right; right; left; cbn; lra.
      - intros v I. unfold vertex in I. cbn [In] in I. destruct I as [<-|[<-|[<-|[]]]]; unfold h_of, s_of, r_of; cbn [fst snd]; (split; [reflexivity|]); lra.
      - right; left; cbn; lra.
      - intros v I. unfold vertex in I. cbn [In] in I. destruct I as [<-|[<-|[<-|[]]]]; unfold h_of, s_of, r_of; cbn [fst snd]; (split; [reflexivity|]); lra. }
    split; [|split].
    + intros f I. apply in_app_iff in I. destruct I as [I|I].
      * destruct (T f I) as [X Y]. split; auto. intros s r Z. specialize (X s r Z). lra.
      * destruct (P f I) as [X Y]. split; [intros s r Z; specialize (X s r Z); lra|]. intros v Iv. destruct (Y v Iv) as (Z1 & Z2 & Z3). split; auto. split; auto. lra.
    + intro W. pose proof (W s0). apply pairs_app; [|exact (N W)|].
      * constructor; [constructor; [|constructor]|repeat constructor]. apply triangles_apart; auto; lra.
      * intros f g If Ig s r X Y. destruct (T f If) as [X1 _]. destruct (P g Ig) as [Y1 _]. specialize (X1 s r X). specialize (Y1 s r Y). lra.
    + intros s Hs _. destruct (Qlt_le_dec s1 s) as [D|D].
      * destruct (C s) as (a & b & t & A1 & A2 & A3 & A4 & A5); [lra|lra|]. exists a, b, t. repeat (split; [solve [auto|lra]|]). intros r R. destruct (A5 r R) as (f & I & X). exists f. split; auto. apply in_app_iff. auto.
      * destruct (fraction s0 s1 s N0) as (t & T0 & Es); [lra|]. exists s0, s1, t. repeat (split; [solve [auto|lra]|]). intros r R.
        destruct (in_triangles s0 s1 (lo s0) (lo s1) (hi s0) (hi s1) (elevation s0 (hi s0)) (elevation s0 (lo s0)) (elevation s1 (hi s1)) (elevation s0 (lo s0)) (elevation s1 (lo s1)) (elevation s1 (hi s1)) s r t) as [X|X]; auto; try lra.
        -- eexists. split; [|exact X]. left. auto.
        -- eexists. split; [|exact X]. right. left. auto.
Qed.
End Optimized.

Section Stripes.
Variable grid : Q.
Variable G : 0 < grid.
Variable l : lane.
Variable tol : Q.
Variable Tol : 0 <= tol.
Variables h half : Q.
Variable Half : 0 <= half.
Notation lo s := (rmin (lane_bounds l s)).
Notation hi s := (rmax (lane_bounds l s)).
Lemma stripe_loop_spec fuel : forall s0, 0 <= s0 -> length_ l <= s0 + qn fuel * grid ->
  exists fs, stripe_loop fuel l tol grid h half s0 = Ok fs /\
  (forall f v, In f fs -> In v f -> h_of v = h /\ s0 <= s_of v <= length_ l /\ (r_of v == lo (s_of v) - half \/ r_of v == lo (s_of v) + half \/ r_of v == hi (s_of v) - half \/ r_of v == hi (s_of v) + half)) /\
  (forall s, s0 <= s <= length_ l -> s0 < length_ l -> exists a b t, s0 <= a < b /\ b <= length_ l /\ b - a <= grid + tol /\ 0 <= t <= 1 /\ s == between t a b /\
     forall d, - half <= d <= half -> (exists f, In f fs /\ in_face f s (between t (lo a) (lo b) + d)) /\ (exists f, In f fs /\ in_face f s (between t (hi a) (hi b) + d))).
Proof.
  induction fuel as [|fuel IH]; intros s0 S0 F.
  - rewrite qn_0 in F. cbn [stripe_loop]. destruct (Qltb_spec s0 (length_ l)); [lra|]. exists []. split; auto. split; [intros f v []|]. intros. lra.
  - cbn [stripe_loop]. destruct (Qltb_spec s0 (length_ l)) as [H|H]; [|exists []; split; auto; split; [intros f v []|]; intros; lra].
    set (s1 := next_s l tol grid s0). destruct (next_s_spec grid G l tol Tol s0 H) as ([N0 N1] & N2 & N3). fold s1 in N0, N1, N2, N3. rewrite qn_S in F.
    destruct (IH s1) as (fs & -> & P & C); [lra|pose proof (qn_nonneg fuel); destruct N3; nra|]. cbn [obind]. eexists. split; [reflexivity|]. split.
    + intros f v [<-|[<-|I]] Iv.
      * destruct Iv as [<-|[<-|[<-|[<-|[]]]]]; unfold h_of, s_of, r_of; cbn [fst snd]; (split; [reflexivity|]); (split; [lra|]); [right; right; left|right; right; left|right; right; right|right; right; right]; reflexivity.
      * destruct Iv as [<-|[<-|[<-|[<-|[]]]]]; unfold h_of, s_of, r_of; cbn [fst snd]; (split; [reflexivity|]); (split; [lra|]); [left|left|right; left|right; left]; reflexivity.
      * destruct (P f v I Iv) as (X1 & X2 & X3). split; auto. split; auto. lra.
    + intros s Hs _. destruct (Qlt_le_dec s1 s) as [D|D].
      * destruct (C s) as (a & b & t & A1 & A2 & A3 & A4 & A5 & A6); [lra|lra|]. exists a, b, t. repeat (split; [solve [auto|lra]|]). intros d Hd. destruct (A6 d Hd) as [(f & I & X) (g & J & Y)]. split; [exists f|exists g]; (split; [right; right; auto|auto]).
      * destruct (fraction s0 s1 s N0) as (t & T0 & Es); [lra|]. exists s0, s1, t. repeat (split; [solve [auto|lra]|]). intros d Hd. split.
        -- eexists. split; [right; left; reflexivity|]. apply in_quad with t; auto. unfold between. lra.
        -- eexists. split; [left; reflexivity|]. apply in_quad with t; auto. unfold between. lra.
Qed.
End Stripes.

(** ** Arrows *)
Section Arrow.
Variables s_off su rl rr h : Q.
Variable n : nat.
Variable Su : 0 <= su.
Variable Rl : 0 <= rl.
Variable Rr : 0 <= rr.
(** The vertex lies in the triangle with base from (s_off, - n rr) to (s_off, n rl) and
    tip (s_off + n su, 0). *)
Definition tri (v : srh) : Prop := h_of v = h /\ exists i j, 0 <= i /\ 0 <= j /\ i + j <= qn n /\ s_of v == s_off + i * su /\ (r_of v == j * rl \/ r_of v == - (j * rr)).
Lemma row_tri (cell tip : Q -> Q -> Q -> Q -> Q -> face) (u : Q) :
  (forall s0 s1 r0 r1 v, In v (cell s0 s1 r0 r1 h) -> In v [(s0, r0, h); (s0, r1, h); (s1, r0, h); (s1, r1, h)]) ->
  (forall s0 s1 r0 r1 v, In v (tip s0 s1 r0 r1 h) -> In v [(s0, r0, h); (s0, r1, h); (s1, r0, h)]) ->
  (u == rl \/ u == - rr) -> forall k i j r, (qn i + qn j + qn k + 1 <= qn n) -> r == qn j * u ->
  forall f v, In f (row_loop cell tip k (s_off + qn i * su) (s_off + (qn i + 1) * su) r u h) -> In v f -> tri v.
Proof.
  intros Hc Ht Hu. pose proof qn_nonneg as Q0.
  assert (V : forall (i j x : Q) s r, 0 <= i -> 0 <= j -> i + j <= qn n -> s == s_off + i * su -> r == j * u -> tri (s, r, h)).
  { intros i j x s r Hi Hj L Es Er. split; auto. exists i, j. repeat (split; [assumption|]). unfold r_of. cbn [fst snd]. destruct Hu as [E|E]; rewrite Er, E; [left|right]; ring. }
  induction k as [|k IH]; intros i j r L Er f v If Iv; cbn [row_loop] in If.
  - rewrite qn_0 in L. pose proof (Q0 i). pose proof (Q0 j). destruct If as [<-|[]]. apply Ht in Iv. destruct Iv as [<-|[<-|[<-|[]]]].
    + apply (V (qn i) (qn j) 0); auto; try lra; try reflexivity.
    + apply (V (qn i) (qn j + 1) 0); auto; try lra; try reflexivity; try (rewrite Er; ring).
    + apply (V (qn i + 1) (qn j) 0); auto; try lra; try reflexivity.
  - rewrite qn_S in L. pose proof (Q0 i). pose proof (Q0 j). pose proof (Q0 k). destruct If as [<-|If].
    + apply Hc in Iv. destruct Iv as [<-|[<-|[<-|[<-|[]]]]].
      * apply (V (qn i) (qn j) 0); auto; try lra; try reflexivity.
      * apply (V (qn i) (qn j + 1) 0); auto; try lra; try reflexivity; try (rewrite Er; ring).
      * apply (V (qn i + 1) (qn j) 0); auto; try lra; try reflexivity.
      * apply (V (qn i + 1) (qn j + 1) 0); auto; try lra; try reflexivity; try (rewrite Er; ring).
    + apply (IH i (S j) (r + u)) with f; auto; rewrite qn_S; [lra|rewrite Er; ring].
Qed.
Lemma arrow_tri k : forall i, (i + k = n)%nat -> forall f v, In f (arrow_loop k i s_off su rl rr h) -> In v f -> tri v.
Proof.
  induction k as [|k IH]; intros i E f v If Iv; [destruct If|]. cbn [arrow_loop] in If.
  assert (Q1 : qn i + qn 0 + qn k + 1 <= qn n).
  { rewrite qn_0, <- E. unfold qn. rewrite Nat2Z.inj_add, Nat2Z.inj_succ, inject_Z_plus. unfold Z.succ. rewrite inject_Z_plus. change (inject_Z 1) with 1. lra. }
  change (inject_Z (Z.of_nat i)) with (qn i) in If. apply in_app_iff in If. destruct If as [If|If]; [|apply in_app_iff in If; destruct If as [If|If]].
  - refine (row_tri left_cell left_tip rl _ _ _ k i 0%nat 0 Q1 _ f v If Iv); [| | |rewrite qn_0; ring].
    + intros s0 s1 r0 r1 w I. unfold left_cell in I. cbn in *. tauto.
    + intros s0 s1 r0 r1 w I. unfold left_tip in I. cbn in *. tauto.
    + left. reflexivity.
  - refine (row_tri right_cell right_tip (- rr) _ _ _ k i 0%nat 0 Q1 _ f v If Iv); [| | |rewrite qn_0; ring].
    + intros s0 s1 r0 r1 w I. unfold right_cell in I. cbn in *. tauto.
    + intros s0 s1 r0 r1 w I. unfold right_tip in I. cbn in *. tauto.
    + right. reflexivity.
  - apply (IH (S i)) with f; auto. lia.
Qed.
End Arrow.
