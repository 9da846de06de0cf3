(** Lemmas about the samples along a path. *)
From Coq Require Import List Bool ZArith Lia.
From Coq Require Import Floats.SpecFloat.
From Verif Require Import Base Binary64 Binary64_Round Binary64_Order Doubles_Model Doubles_Spec Doubles_Proofs Doubles_Proofs3.
Import ListNotations.
Local Open Scope Z_scope.

Lemma places_shift o ranges ll : places o ranges ll = map (fun x => o + x) (places 0 ranges ll).
Proof.
  revert o ll. induction ranges as [|r rs IH]; intros o [|l ls]; try reflexivity. cbn [places]. rewrite map_app, map_map, (IH (o + val (s1 r) - val (s0 r))), (IH (0 + val (s1 r) - val (s0 r))), map_map. f_equal; [apply map_ext; intros; lia|apply map_ext; intros; lia].
Qed.
Lemma neighbours_map {A B} (f : A -> B) l x y : neighbours (map f l) x y -> exists a b, x = f a /\ y = f b /\ neighbours l a b.
Proof.
  induction l as [|a l IH]; intros N; [destruct N as ([|] & ? & E); discriminate|]. cbn [map] in N. apply neighbours_cons in N. destruct N as [(-> & t & E)|N].
  - destruct l as [|b l]; [discriminate|]. cbn in E. inversion E; subst. exists a, b. split; [reflexivity|]. split; [reflexivity|]. exists [], l. reflexivity.
  - destruct (IH N) as (u & v & -> & -> & M). exists u, v. split; [reflexivity|]. split; [reflexivity|]. apply neighbours_add, M.
Qed.
(** Neighbours across a junction. *)
Lemma neighbours_app {A} (l m : list A) x y : neighbours (l ++ m)%list x y -> neighbours l x y \/ neighbours m x y \/ (exists l' m', l = l' ++ [x] /\ m = y :: m')%list.
Proof.
  induction l as [|a l IH]; cbn [app]; intros N; [right; left; exact N|]. apply neighbours_cons in N. destruct N as [(-> & t & E)|N].
  - destruct l as [|b l]; [right; right; exists [], t; split; [reflexivity|exact E]|]. cbn in E. inversion E; subst. left. exists [], l. reflexivity.
  - destruct (IH N) as [M|[M|(l' & m' & -> & ->)]]; [left; apply neighbours_add, M|right; left; exact M|right; right; exists (a :: l'), m'; split; reflexivity].
Qed.
Lemma loop_more l e s step to n : loop n s step to = Some (l, e) -> forall m, (n <= m)%nat -> loop m s step to = Some (l, e).
Proof.
  revert s l e. induction n as [|n IH]; intros s l e H m M; [discriminate|]. destruct m as [|m]; [lia|]. cbn [loop] in *. destruct (fle s to); [|exact H]. destruct (loop n (fadd s step) step to) as [[l' e']|] eqn:E; [|discriminate]. rewrite (IH _ _ _ E m) by lia. exact H.
Qed.
(** One range. *)
Lemma one_range B rate r d k : is_double rate -> 0 < val rate -> range_double r -> val (s0 r) <= val (s1 r) <= B -> is_double d ->
  - val rate <= val d -> 0 <= k -> 2 ^ 53 * val d <= k -> k <= 2 ^ 53 * val rate -> 16 * (B + 8 * val rate) <= 2 ^ 53 * val rate -> 4 * (B + 8 * val rate) <= top ->
  exists l e n d', (forall m, (n < m)%nat -> loop m (fadd (fadd d (s0 r)) rate) rate (s1 r) = Some (l, e)) /\ d' = fsub (fsub e (s1 r)) rate /\
    is_double d' /\ - val rate <= val d' /\
    (forall x, In x l -> is_double x /\ val x <= val (s1 r) /\ 2 ^ 53 * (val (s0 r) - val x) <= 2 * B + 6 * val rate /\ (val (s0 r) = 0 -> 0 <= val x)) /\
    (forall x y, neighbours l x y -> 2 ^ 53 * Z.abs (val y - val x - val rate) <= 8 * (B + 8 * val rate)) /\
    (l = [] -> 2 ^ 53 * Z.abs (val d' - (val d + val (s0 r) - val (s1 r))) <= 8 * (B + 8 * val rate)) /\
    (forall x t, l = x :: t -> 2 ^ 53 * Z.abs (val x - val (s0 r) - (val d + val rate)) <= 8 * (B + 8 * val rate)) /\
    (forall x t, l = t ++ [x] -> 2 ^ 53 * Z.abs (val d' - (val x - val (s1 r))) <= 8 * (B + 8 * val rate))%list.
Proof.
  intros R P (S0 & S1 & P0 & P1) BB D DL K DK KR BR T. set (b := val rate) in *.
  destruct (fadd_near d (s0 r) (B + b) D S0 ltac:(lia) ltac:(lia)) as [D1 N1].
  destruct (fadd_near (fadd d (s0 r)) rate (B + 3 * b) D1 R ltac:(fold b; lia) ltac:(lia)) as [D2 N2]. fold b in N2. set (a1 := val (fadd d (s0 r))) in *. set (acc := fadd (fadd d (s0 r)) rate) in *.
  assert (NA : 2 ^ 53 * Z.abs (val acc - (val d + val (s0 r) + b)) <= 2 * B + 4 * b) by lia.
  assert (Z0 : val (s0 r) = 0 -> 0 <= val acc).
  { intros E0. assert (A1 : - b <= a1). { unfold a1. rewrite (proj2 (fadd_small d (s0 r) D S0 (rnd_bounded (val d + val (s0 r)) (B + b) ltac:(lia) ltac:(lia)))). apply rnd_ge; [apply repr_opp, val_repr, R|lia]. }
    unfold acc. rewrite (proj2 (fadd_small _ rate D1 R (rnd_bounded (val (fadd d (s0 r)) + val rate) (B + 3 * b) ltac:(fold a1 b; lia) ltac:(lia)))). fold a1 b. apply rnd_ge; [exists 0, 0; repeat split; lia|lia]. }
  set (n := Z.to_nat (2 * (val (s1 r) - val acc) / b + 1)).
  assert (M : 2 * (val (s1 r) - val acc) < Z.of_nat n * b). { unfold n. destruct (Z_lt_le_dec (val (s1 r)) (val acc)) as [G|G]; [pose proof (Zle_0_nat (Z.to_nat (2 * (val (s1 r) - val acc) / b + 1))); nia|]. pose proof (Z.div_pos (2 * (val (s1 r) - val acc)) b ltac:(lia) P). rewrite Z2Nat.id by lia. pose proof (Z.mul_succ_div_gt (2 * (val (s1 r) - val acc)) b P). lia. }
  destruct (loop_runs (B + 4 * b) rate (s1 r) R S1 P ltac:(lia) ltac:(fold b; lia) ltac:(fold b; lia) n acc D2 ltac:(lia) M) as (l & e & LR & _ & DE & GE & IN & (t & HD) & NB & EM). fold b in NB.
  assert (BL : val e - val (s1 r) <= 3 * b /\ (l = [] -> e = acc) /\ (forall x t', l = t' ++ [x] -> 2 ^ 53 * Z.abs (val e - (val x + b)) <= B + 5 * b)%list).
  { split; [|split].
    - destruct (list_eq_dec (fun x y : double => ltac:(decide equality; try apply Bool.bool_dec; try apply Z.eq_dec; apply Pos.eq_dec)) l []) as [->|NE]; [cbn in HD; inversion HD; subst; lia|].
      destruct (exists_last NE) as (t' & x & ->). assert (X : 2 ^ 53 * Z.abs (val e - (val x + b)) <= B + 4 * b + b) by (apply NB; exists t', []; rewrite <- app_assoc; reflexivity). assert (val x <= val (s1 r)) by (apply IN, in_or_app; right; left; reflexivity). lia.
    - intros ->. cbn in HD. inversion HD. reflexivity.
    - intros x t' ->. assert (X : 2 ^ 53 * Z.abs (val e - (val x + b)) <= B + 4 * b + b) by (apply NB; exists t', []; rewrite <- app_assoc; reflexivity). lia. }
  destruct BL as (BE & EE & EL).
  destruct (fsub_near e (s1 r) (3 * b) DE S1 ltac:(lia) ltac:(lia)) as [D3 N3]. destruct (fsub_near (fsub e (s1 r)) rate (5 * b) D3 R ltac:(fold b; lia) ltac:(lia)) as [D4 N4]. fold b in N4.
  assert (F0 : 0 <= val (fsub e (s1 r))). { rewrite (proj2 (fsub_small e (s1 r) DE S1 (rnd_bounded (val e - val (s1 r)) (3 * b) ltac:(lia) ltac:(lia)))). apply rnd_ge; [exists 0, 0; repeat split; lia|lia]. }
  exists l, e, n, (fsub (fsub e (s1 r)) rate). split; [exact LR|]. split; [reflexivity|]. split; [exact D4|].
  split. { rewrite (proj2 (fsub_small _ rate D3 R (rnd_bounded (val (fsub e (s1 r)) - val rate) (5 * b) ltac:(fold b; lia) ltac:(lia)))). apply rnd_ge; [apply repr_opp, val_repr, R|fold b; lia]. }
  split. { intros x I. destruct (IN x I) as [DX LX]. split; [exact DX|]. split; [lia|]. split; [lia|]. intros E0. specialize (Z0 E0). lia. }
  split. { intros x y N. assert (X : 2 ^ 53 * Z.abs (val y - (val x + b)) <= B + 4 * b + b) by (apply NB; destruct N as (u & v & ->); exists u, (v ++ [e])%list; rewrite <- app_assoc; reflexivity). lia. }
  split. { intros EQ. rewrite (EE EQ) in *. lia. }
  split. { intros x t' ->. cbn in HD. inversion HD; subst. lia. }
  intros x t' EQ. specialize (EL x t' EQ). lia.
Qed.
