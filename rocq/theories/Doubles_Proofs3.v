(** Lemmas about sampling loops on doubles. *)
From Coq Require Import List Bool ZArith Lia.
From Coq Require Import Floats.SpecFloat.
From Verif Require Import Base Binary64 Binary64_Round Binary64_Order Doubles_Model Doubles_Spec Doubles_Proofs.
Import ListNotations.
Local Open Scope Z_scope.

Lemma rnd_bounded z B : Z.abs z <= B -> 2 * B <= top -> Z.abs (rnd z) < top.
Proof. intros L T. pose proof (rnd_near z). pose proof top_pos. lia. Qed.
Lemma fadd_near x y B : is_double x -> is_double y -> Z.abs (val x + val y) <= B -> 2 * B <= top -> is_double (fadd x y) /\ 2 ^ 53 * Z.abs (val (fadd x y) - (val x + val y)) <= B.
Proof.
  intros X Y L T. destruct (fadd_small x y X Y (rnd_bounded _ _ L T)) as [D ->]. split; [exact D|]. pose proof (rnd_near (val x + val y)). lia.
Qed.
Lemma fsub_near x y B : is_double x -> is_double y -> Z.abs (val x - val y) <= B -> 2 * B <= top -> is_double (fsub x y) /\ 2 ^ 53 * Z.abs (val (fsub x y) - (val x - val y)) <= B.
Proof.
  intros X Y L T. destruct (fsub_small x y X Y (rnd_bounded _ _ L T)) as [D ->]. split; [exact D|]. pose proof (rnd_near (val x - val y)). lia.
Qed.
Lemma neighbours_cons {A} (a : A) l x y : neighbours (a :: l) x y -> (x = a /\ exists t, l = y :: t) \/ neighbours l x y.
Proof.
  intros (u & v & E). destruct u as [|b u]; cbn in E; inversion E; subst; [left; split; [reflexivity|eexists; reflexivity]|right; exists u, v; reflexivity].
Qed.
Lemma neighbours_add {A} (a : A) l x y : neighbours l x y -> neighbours (a :: l) x y.
Proof. intros (u & v & ->). exists (a :: u), v. reflexivity. Qed.
Lemma loop_runs B step to : is_double step -> is_double to -> 0 < val step -> Z.abs (val to) <= B -> B + val step <= 2 ^ 52 * val step -> 2 * (B + val step) <= top ->
  forall n s, is_double s -> Z.abs (val s) <= B -> 2 * (val to - val s) < Z.of_nat n * val step ->
  exists l e, (forall m, (n < m)%nat -> loop m s step to = Some (l, e)) /\ (List.length l <= n)%nat /\ is_double e /\ val to < val e /\
    (forall x, In x l -> is_double x /\ val s <= val x <= val to) /\ (exists t, l ++ [e] = s :: t)%list /\
    (forall x y, neighbours (l ++ [e])%list x y -> 2 ^ 53 * Z.abs (val y - (val x + val step)) <= B + val step) /\
    (l = [] -> val to < val s).
Proof.
  intros ST TO P BT BS T n. induction n as [|n IH]; intros s S BSs M.
  - exists [], s. split. { intros [|m] L; [lia|]. cbn [loop]. rewrite fle_val by assumption. replace (val s <=? val to) with false by (symmetry; apply Z.leb_gt; lia). reflexivity. }
    split; [cbn; lia|]. split; [exact S|]. split; [lia|]. split; [intros x []|]. split; [exists []; reflexivity|]. split; [|lia]. intros x y (u & v & E). destruct u as [|? [|? u]]; discriminate.
  - destruct (Z_lt_le_dec (val to) (val s)) as [G|G].
    + exists [], s. split. { intros [|m] L; [lia|]. cbn [loop]. rewrite fle_val by assumption. replace (val s <=? val to) with false by (symmetry; apply Z.leb_gt; lia). reflexivity. }
      split; [cbn; lia|]. split; [exact S|]. split; [lia|]. split; [intros x []|]. split; [exists []; reflexivity|]. split; [|lia]. intros x y (u & v & E). destruct u as [|? [|? u]]; discriminate.
    + destruct (fadd_near s step (B + val step) S ST ltac:(lia) T) as [D N]. assert (A : val step <= 2 * (val (fadd s step) - val s) <= 3 * val step) by lia.
      destruct (Z_le_gt_dec (Z.abs (val (fadd s step))) B) as [BN|BN].
      * destruct (IH (fadd s step) D BN ltac:(lia)) as (l & e & R & LN & DE & GE & IN & (t & HD) & NB & _). exists (s :: l), e. split. { intros [|m] L; [lia|]. cbn [loop]. rewrite fle_val by assumption. rewrite (proj2 (Z.leb_le _ _) G). rewrite R by lia. reflexivity. }
        split; [cbn; lia|]. split; [exact DE|]. split; [exact GE|]. split. { intros x [<-|I]; [split; [exact S|lia]|]. destruct (IN x I) as [DX LX]. split; [exact DX|lia]. }
        split; [exists (l ++ [e])%list; reflexivity|]. split; [|discriminate]. cbn [app]. intros x y NE. apply neighbours_cons in NE. destruct NE as [(-> & t' & E)|NE]; [|apply NB, NE]. rewrite HD in E. inversion E; subst. exact N.
      * assert (G2 : val to < val (fadd s step)) by lia. exists [s], (fadd s step). split. { intros [|[|m]] L; try lia. cbn [loop]. rewrite !fle_val by assumption. rewrite (proj2 (Z.leb_le _ _) G). replace (val (fadd s step) <=? val to) with false by (symmetry; apply Z.leb_gt; lia). reflexivity. }
        split; [cbn; lia|]. split; [exact D|]. split; [exact G2|]. split. { intros x [<-|[]]. split; [exact S|lia]. } split; [exists [fadd s step]; reflexivity|]. split; [|discriminate]. cbn [app]. intros x y NE. apply neighbours_cons in NE. destruct NE as [(-> & t' & E)|NE]; [inversion E; subst; exact N|]. destruct NE as (u & v & E). destruct u as [|? [|? u]]; discriminate.
Qed.
Lemma crossed (l : list double) e s t x : (l ++ [e] = s :: t)%list -> val s <= x -> x < val e -> exists y z, In y l /\ neighbours (l ++ [e])%list y z /\ val y <= x < val z.
Proof.
  revert s t. induction l as [|a l IH]; intros s t E L G; cbn in E; inversion E; subst; [lia|]. destruct (l ++ [e])%list as [|b w] eqn:Q; [destruct l; discriminate|]. destruct (Z_le_gt_dec (val b) x) as [H|H].
  - destruct (IH b w eq_refl H G) as (y & z & I & N & V). exists y, z. split; [right; exact I|]. split; [|exact V]. cbn [app]. rewrite Q. apply neighbours_add, N.
  - exists s, b. split; [left; reflexivity|]. split; [exists [], w; cbn [app]; rewrite Q; reflexivity|lia].
Qed.
