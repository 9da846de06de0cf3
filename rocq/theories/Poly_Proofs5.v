(** Lemmas about Poly_Model: the numbers of variables. *)
From Coq Require Import List NArith Bool Arith Lia String Ascii.
From Verif Require Import Base Poly_Model Poly_Spec Poly_Proofs4.
Import ListNotations.

Definition show (d : N) : string := if N.ltb 0 d then match String.get (N.to_nat (d - 1)) kNameChars with Some c => String c EmptyString | None => EmptyString end else EmptyString.
Lemma digits_part d0 d1 d2 d3 : (d0 < 31 -> d1 < 31 -> d2 < 31 -> d3 < 31 ->
  let p := d0 + 31 * (d1 + 31 * (d2 + 31 * d3)) in
  (p / 29791) mod 31 = d3 /\ (p / 961) mod 31 = d2 /\ (p / 31) mod 31 = d1 /\ (p / 1) mod 31 = d0)%N.
Proof.
  intros A B C D p.
  assert (P1 : (p / 31 = d1 + 31 * (d2 + 31 * d3))%N) by (symmetry; apply (N.div_unique p 31 _ d0); unfold p; lia).
  assert (P2 : (p / 961 = d2 + 31 * d3)%N) by (symmetry; apply (N.div_unique p 961 _ (d0 + 31 * d1)); unfold p; lia).
  assert (P3 : (p / 29791 = d3)%N) by (symmetry; apply (N.div_unique p 29791 _ (d0 + 31 * d1 + 961 * d2)); unfold p; lia).
  rewrite P1, P2, P3, N.div_1_r. split; [apply N.mod_small; auto|]. split; [symmetry; apply (N.mod_unique _ 31 d3); lia|].
  split; [symmetry; apply (N.mod_unique _ 31 (d2 + 31 * d3)); lia|]. symmetry; apply (N.mod_unique _ 31 (d1 + 31 * (d2 + 31 * d3))); unfold p; lia.
Qed.
Lemma id_loop_digits d0 d1 d2 d3 : (d0 < 31)%N -> (d1 < 31)%N -> (d2 < 31)%N -> (d3 < 31)%N ->
  id_loop 4 (d0 + 31 * (d1 + 31 * (d2 + 31 * d3))) 29791 = append (show d3) (append (show d2) (append (show d1) (show d0))).
Proof.
  intros A B C D. destruct (digits_part d0 d1 d2 d3 A B C D) as (E3 & E2 & E1 & E0). cbv zeta in *. set (p := (d0 + 31 * (d1 + 31 * (d2 + 31 * d3)))%N) in *.
  cbn [id_loop]. change (kNumNameChars + 1)%N with 31%N. change (29791 / 31)%N with 961%N. change (961 / 31)%N with 31%N. change (31 / 31)%N with 1%N.
  rewrite E3, E2, E1, E0. unfold show.
  assert (S : forall d r, (if N.ltb 0 d then match String.get (N.to_nat (d - 1)) kNameChars with Some c => String c r | None => r end else r) =
    append (if N.ltb 0 d then match String.get (N.to_nat (d - 1)) kNameChars with Some c => String c EmptyString | None => EmptyString end else EmptyString) r).
  { intros d r. destruct (N.ltb 0 d); [|reflexivity]. destruct (String.get _ _); reflexivity. }
  rewrite (S d3), (S d2), (S d1), (S d0). assert (Z : forall s, append s EmptyString = s) by (induction s as [|c s IH]; simpl; congruence). rewrite Z. reflexivity.
Qed.
Lemma show_digit c : name_char c -> show (digit c) = String c EmptyString.
Proof.
  intros H. destruct (name_char_digit c H) as (D & _ & G). unfold show. destruct (N.ltb_spec 0 (digit c)); [|lia]. rewrite G. reflexivity.
Qed.

Definition part (s : string) : N := num (map digit (rev (list_ascii_of_string s))).
Lemma part_cases s : good_name s -> exists d0 d1 d2 d3, part s = (d0 + 31 * (d1 + 31 * (d2 + 31 * d3)))%N /\
  (1 <= d0 < 31)%N /\ (d1 < 31)%N /\ (d2 < 31)%N /\ (d3 < 31)%N /\ append (show d3) (append (show d2) (append (show d1) (show d0))) = s.
Proof.
  intros [L F]. unfold part. destruct s as [|c1 [|c2 [|c3 [|c4 [|c5 s]]]]]; cbn [String.length] in L; try lia; cbn [list_ascii_of_string] in *;
    repeat match goal with H : Forall name_char (_ :: _) |- _ => inversion H; clear H; subst end;
    repeat match goal with H : name_char ?c |- _ => pose proof (show_digit c H); pose proof (proj1 (name_char_digit c H)); clear H end; cbn [rev app map num].
  - exists (digit c1), 0%N, 0%N, 0%N. repeat match goal with E : show _ = _ |- _ => rewrite E; clear E end. repeat split; try lia.
  - exists (digit c2), (digit c1), 0%N, 0%N. repeat match goal with E : show _ = _ |- _ => rewrite E; clear E end. repeat split; try lia.
  - exists (digit c3), (digit c2), (digit c1), 0%N. repeat match goal with E : show _ = _ |- _ => rewrite E; clear E end. repeat split; try lia.
  - exists (digit c4), (digit c3), (digit c2), (digit c1). repeat match goal with E : show _ = _ |- _ => rewrite E; clear E end. repeat split; try lia.
Qed.
Lemma good_name_valid s : good_name s -> IsValidVariableName s = true.
Proof.
  intros [L F]. unfold IsValidVariableName. apply Bool.andb_true_iff. split.
  - destruct s; [simpl in L; lia|]. reflexivity.
  - apply forallb_forall. intros c I. rewrite Forall_forall in F. destruct (name_char_digit c (F c I)) as (_ & -> & _). reflexivity.
Qed.
Lemma name_id s m : good_name s -> (1 <= m <= 2325)%N -> VariableNameToId s m = Ok (2 * (part s + 923521 * (m - 1)))%N /\ (part s < 923521)%N.
Proof.
  intros G Hm. destruct (part_cases s G) as (d0 & d1 & d2 & d3 & E & B0 & B1 & B2 & B3 & _). assert (P : (part s < 923521)%N) by lia. split; [|exact P].
  unfold VariableNameToId. rewrite (good_name_valid s G). cbn [throw_unless].
  assert (L : name_loop (rev (list_ascii_of_string s)) 1 0 = part s).
  { destruct G as [G1 G2]. rewrite name_loop_num.
    - unfold part. lia.
    - apply Forall_rev; auto.
    - rewrite rev_length. assert (X : List.length (list_ascii_of_string s) = String.length s) by (clear; induction s; simpl; congruence). rewrite X.
      assert (31 ^ N.of_nat (String.length s) <= 31 ^ 4)%N by (apply N.pow_le_mono_r; lia). change (31 ^ 4)%N with 923521%N in *. unfold two32. lia.
    - fold (part s). unfold two32. lia. }
  rewrite L. cbv zeta. unfold kMaxNamePart in *. destruct (N.leb_spec (part s) 923521); [|lia]. cbn [throw_unless].
  change ((two32 - 1) / 2 / 923521)%N with 2325%N. destruct (N.leb_spec m 2325); [|lia]. cbn [throw_unless]. destruct (N.leb_spec 1 m); [|lia]. cbn [throw_unless].
  rewrite (N.mod_small (923521 * (m - 1))) by (unfold two32; lia). rewrite (N.mod_small (part s + _)) by (unfold two32; lia). rewrite N.mod_small by (unfold two32; lia). reflexivity.
Qed.
Lemma id_name s m : good_name s -> (1 <= m)%N -> IdToVariableName (2 * (part s + 923521 * (m - 1))) = append s (to_string m).
Proof.
  intros G Hm. destruct (part_cases s G) as (d0 & d1 & d2 & d3 & E & B0 & B1 & B2 & B3 & Es). assert (P : (part s < 923521)%N) by lia.
  unfold IdToVariableName. rewrite (N.mul_comm 2), N.div_mul by lia. unfold kMaxNamePart.
  assert (Q1 : ((part s + 923521 * (m - 1)) mod 923521 = part s)%N) by (symmetry; apply (N.mod_unique _ 923521 (m - 1)); lia).
  assert (Q2 : ((part s + 923521 * (m - 1)) / 923521 = m - 1)%N) by (symmetry; apply (N.div_unique _ 923521 _ (part s)); lia).
  rewrite Q1, Q2. replace (m - 1 + 1)%N with m by lia. rewrite E, id_loop_digits by lia. rewrite Es. destruct s; [|reflexivity].
  destruct G as [G _]. simpl in G. lia.
Qed.
Lemma part_inj s s' : good_name s -> good_name s' -> part s = part s' -> s = s'.
Proof.
  intros G G' H. destruct (part_cases s G) as (d0 & d1 & d2 & d3 & E & B0 & B1 & B2 & B3 & Es).
  destruct (part_cases s' G') as (e0 & e1 & e2 & e3 & E' & C0 & C1 & C2 & C3 & Es'). rewrite E, E' in H.
  assert (d0 = e0) by lia. assert (d1 = e1) by lia. assert (d2 = e2) by lia. assert (d3 = e3) by lia. congruence.
Qed.
Lemma valid_char c : strchr kNameChars c <> None -> name_char c \/ c = Ascii.zero.
Proof.
  intros H.
  assert (K : forallb (fun n => match strchr kNameChars (ascii_of_nat n) with
    | Some _ => (Nat.leb 97 n && Nat.leb n 122) || Nat.eqb n 64 || Nat.eqb n 35 || Nat.eqb n 95 || Nat.eqb n 46 || Nat.eqb n 0 | None => true end) (seq 0 256) = true)
    by (vm_compute; reflexivity).
  rewrite forallb_forall in K. assert (B : (nat_of_ascii c < 256)%nat) by apply nat_ascii_bounded.
  specialize (K (nat_of_ascii c) ltac:(apply in_seq; lia)). rewrite ascii_nat_embedding in K. destruct (strchr kNameChars c); [|congruence].
  assert (E : forall k, nat_of_ascii c = k -> c = ascii_of_nat k) by (intros k <-; now rewrite ascii_nat_embedding).
  rewrite !orb_true_iff, andb_true_iff, !Nat.eqb_eq, !Nat.leb_le in K.
  destruct K as [[[[[K|K]|K]|K]|K]|K]; [left; left; unfold nat_of_ascii in K; lia| | | | |right; apply (E _ K)];
    left; right; rewrite (E _ K); [now left|right; now left|right; right; now left|right; right; now right].
Qed.
