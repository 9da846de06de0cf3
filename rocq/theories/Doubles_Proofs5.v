(** The samples along a whole path. *)
From Coq Require Import List Bool ZArith Lia.
From Coq Require Import Floats.SpecFloat.
From Verif Require Import Base Binary64 Binary64_Round Binary64_Order Doubles_Model Doubles_Spec Doubles_Proofs Doubles_Proofs3 Doubles_Proofs4.
Import ListNotations.
Local Open Scope Z_scope.

Lemma last_split {A} (l : list A) : l = [] \/ exists t x, l = (t ++ [x])%list.
Proof. induction l as [|a l [->|(t & x & ->)]]; [left; reflexivity|right; exists [], a; reflexivity|right; exists (a :: t), x; reflexivity]. Qed.
Lemma ahead_runs B rate : is_double rate -> 0 < val rate -> 16 * (B + 8 * val rate) <= 2 ^ 53 * val rate -> 4 * (B + 8 * val rate) <= top -> 0 <= B ->
  forall ranges k prev d, is_double d -> - val rate <= val d -> prev <= 0 -> 0 <= k -> 2 ^ 53 * Z.abs (val d - prev) <= k * (8 * (B + 8 * val rate)) ->
  (k + Z.of_nat (List.length ranges)) * (8 * (B + 8 * val rate)) <= 2 ^ 53 * val rate ->
  (forall r, In r ranges -> range_double r /\ val (s0 r) <= val (s1 r) <= B) ->
  exists ll n d', (forall m, (n < m)%nat -> ahead m ranges rate d = Some (ll, d')) /\ is_double d' /\
    Forall2 (fun r l => forall x, In x l -> is_double x /\ val x <= val (s1 r) /\ 2 ^ 53 * (val (s0 r) - val x) <= 2 * B + 6 * val rate /\ (val (s0 r) = 0 -> 0 <= val x)) ranges ll /\
    (forall p q, neighbours (prev :: places 0 ranges ll) p q -> 2 ^ 53 * Z.abs (q - p - val rate) <= (k + 1 + Z.of_nat (List.length ranges)) * (8 * (B + 8 * val rate))) /\
    (exists w q, (prev :: places 0 ranges ll = w ++ [q])%list /\ 2 ^ 53 * Z.abs (val d' + path_length ranges - q) <= (k + Z.of_nat (List.length ranges)) * (8 * (B + 8 * val rate))).
Proof.
  intros R P BR T B0. set (C := 8 * (B + 8 * val rate)) in *. assert (C0 : 0 <= C) by (subst C; lia).
  induction ranges as [|r rs IH]; intros k prev d D DL PR K DP KC OK.
  - exists [], 0%nat, d. split; [intros; reflexivity|]. split; [exact D|]. split; [constructor|]. split. { intros p q (u & v & E). destruct u as [|? [|? u]]; discriminate. }
    exists [], prev. split; [reflexivity|]. cbn [path_length fold_right List.length Z.of_nat]. rewrite !Z.add_0_r. lia.
  - cbn [List.length] in KC |- *. rewrite Nat2Z.inj_succ in *. set (len := Z.of_nat (List.length rs)) in *. assert (L0 : 0 <= len) by (subst len; lia).
    destruct (OK r (or_introl eq_refl)) as [RR RB]. assert (KL : k * C <= (k + Z.succ len) * C) by (apply Z.mul_le_mono_nonneg_r; lia).
    destruct (one_range B rate r d (k * C) R P RR RB D DL ltac:(apply Z.mul_nonneg_nonneg; lia) ltac:(lia) ltac:(lia) BR T) as (l & e & n & d' & LR & DE & D' & DL' & IN & NB & EM & HD & LA). fold C in NB, EM, HD, LA.
    set (o := val (s1 r) - val (s0 r)) in *.
    assert (ST : exists prev', prev' <= 0 /\ 2 ^ 53 * Z.abs (val d' - prev') <= (k + 1) * C /\ (l = [] -> prev' = prev - o) /\ (forall t x, l = t ++ [x] -> prev' = val x - val (s1 r))%list).
    { destruct (last_split l) as [->|(t & x & ->)].
      - exists (prev - o). specialize (EM eq_refl). split; [subst o; lia|]. split; [subst o; lia|]. split; [reflexivity|]. intros [|] ? Q; discriminate.
      - exists (val x - val (s1 r)). specialize (LA x t eq_refl). assert (val x <= val (s1 r)) by (apply IN, in_or_app; right; left; reflexivity). assert (0 <= k * C) by (apply Z.mul_nonneg_nonneg; lia). split; [lia|]. split; [lia|]. split; [destruct t; discriminate|]. intros t' x' Q. apply app_inj_tail in Q. destruct Q as [_ ->]. reflexivity. }
    destruct ST as (prev' & PP & DP' & PE & PL).
    destruct (IH (k + 1) prev' d' D' DL' PP ltac:(lia) DP' ltac:(replace (k + 1 + len) with (k + Z.succ len) by lia; exact KC) (fun r' I => OK r' (or_intror I))) as (ll & n' & d2 & AR & D2 & F & NB' & (w & q & WQ & LQ)). fold len in NB', LQ.
    exists (l :: ll), (Nat.max n n'), d2. split. { intros m M. cbn [ahead]. rewrite LR by lia. rewrite <- DE. rewrite AR by lia. reflexivity. }
    split; [exact D2|]. split; [constructor; [exact IN|exact F]|].
    assert (NB2 : forall p q, neighbours (map (fun x => o + x) (prev' :: places 0 rs ll)) p q -> 2 ^ 53 * Z.abs (q - p - val rate) <= (k + 1 + Z.succ len) * C).
    { intros p q' N. apply neighbours_map in N. destruct N as (a & b & -> & -> & N). specialize (NB' a b N). replace (k + 1 + 1 + len) with (k + 1 + Z.succ len) in NB' by lia. lia. }
    assert (PO : places (0 + val (s1 r) - val (s0 r)) rs ll = map (fun x => o + x) (places 0 rs ll)) by (rewrite places_shift; apply map_ext; intros; subst o; lia).
    assert (C1 : forall j, 1 <= j -> C <= j * C) by (intros j J; rewrite <- (Z.mul_1_l C) at 1; apply Z.mul_le_mono_nonneg_r; lia).
    cbn [places]. rewrite PO. destruct (last_split l) as [->|(t & x & EQ)].
    + rewrite (PE eq_refl) in NB2, WQ. cbn [map app] in NB2 |- *. replace (o + (prev - o)) with prev in NB2 by lia. split; [exact NB2|].
      exists (map (fun x => o + x) w), (o + q). split; [|cbn [path_length fold_right]; fold (path_length rs); fold o; replace (k + 1 + len) with (k + Z.succ len) in LQ by lia; lia].
      replace (map (fun x => o + x) w ++ [o + q])%list with (map (fun x => o + x) (w ++ [q])%list) by (rewrite map_app; reflexivity). rewrite <- WQ. cbn [map]. f_equal. lia.
    + assert (PX := PL t x EQ). assert (OX : o + prev' = 0 + val x - val (s0 r)) by (subst o; lia).
      assert (ML : map (fun x0 => 0 + val x0 - val (s0 r)) l = (map (fun x0 => 0 + val x0 - val (s0 r)) t ++ [o + prev'])%list) by (rewrite EQ, map_app, OX; reflexivity).
      split.
      * intros p q' N. apply neighbours_cons in N. destruct N as [(-> & t2 & E2)|N].
        { destruct l as [|y l]; [destruct t; discriminate|]. cbn [map app] in E2. inversion E2; subst q' t2. specialize (HD y l eq_refl). specialize (C1 (1 + Z.succ len) ltac:(lia)). lia. }
        apply neighbours_app in N. destruct N as [N|[N|(l' & m' & E1 & E2)]].
        -- apply neighbours_map in N. destruct N as (a & b & -> & -> & N). specialize (NB a b N). specialize (C1 (k + 1 + Z.succ len) ltac:(lia)). lia.
        -- apply NB2. cbn [map]. apply neighbours_add, N.
        -- rewrite ML in E1. apply app_inj_tail in E1. destruct E1 as [_ <-]. apply NB2. cbn [map]. rewrite E2. exists [], m'. reflexivity.
      * exists (prev :: map (fun x0 => 0 + val x0 - val (s0 r)) t ++ map (fun x => o + x) w)%list, (o + q). split; [|cbn [path_length fold_right]; fold (path_length rs); fold o; replace (k + 1 + len) with (k + Z.succ len) in LQ by lia; lia].
        rewrite ML. cbn [app]. f_equal. rewrite <- !app_assoc. f_equal. replace (map (fun x => o + x) w ++ [o + q])%list with (map (fun x => o + x) (w ++ [q])%list) by (rewrite map_app; reflexivity). rewrite <- WQ. reflexivity.
Qed.
