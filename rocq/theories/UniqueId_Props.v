(** C54: unique ids of bulbs and bulb groups. *)
From Coq Require Import String Ascii List Bool NArith.
From Verif Require Import UniqueId_Model UniqueId_Spec.
Import ListNotations.
Local Open Scope string_scope.

(** ** Strings as lists *)
Lemma list_app : forall s t, list_ascii_of_string (s ++ t) = (list_ascii_of_string s ++ list_ascii_of_string t)%list.
Proof. induction s as [|c s IH]; intro t; [reflexivity|]. cbn. f_equal. apply IH. Qed.
Lemma list_inj : forall s t, list_ascii_of_string s = list_ascii_of_string t -> s = t.
Proof. intros s t E. rewrite <- (string_of_list_ascii_of_string s), <- (string_of_list_ascii_of_string t), E. reflexivity. Qed.

Lemma split_first {A} : forall (d : A) l1 l2 r1 r2, ~ In d l1 -> ~ In d l2 -> (l1 ++ d :: r1)%list = (l2 ++ d :: r2)%list -> l1 = l2 /\ r1 = r2.
Proof.
  intros d l1. induction l1 as [|x l1 IH]; intros l2 r1 r2 N1 N2 E.
  - destruct l2 as [|y l2]; cbn in E; [injection E as E; auto|]. injection E as E1 E2. exfalso. apply N2. left. auto.
  - destruct l2 as [|y l2]; cbn in E.
    + injection E as E1 E2. exfalso. apply N1. left. auto.
    + injection E as E1 E2. destruct (IH l2 r1 r2) as [A1 A2]; auto.
      * intro I. apply N1. right. exact I.
      * intro I. apply N2. right. exact I.
      * subst. auto.
Qed.
Lemma split_last {A} : forall (d : A) l1 l2 r1 r2, ~ In d r1 -> ~ In d r2 -> (l1 ++ d :: r1)%list = (l2 ++ d :: r2)%list -> l1 = l2 /\ r1 = r2.
Proof.
  intros d l1 l2 r1 r2 N1 N2 E. apply (f_equal (@rev A)) in E. rewrite !rev_app_distr in E. cbn [rev] in E. rewrite <- !app_assoc in E. cbn [app] in E.
  destruct (split_first d (rev r1) (rev r2) (rev l1) (rev l2)) as [A1 A2]; auto.
  - rewrite <- in_rev. exact N1.
  - rewrite <- in_rev. exact N2.
  - split; [rewrite <- (rev_involutive l1), <- (rev_involutive l2)|rewrite <- (rev_involutive r1), <- (rev_involutive r2)]; congruence.
Qed.

(** ** The strings *)
(** Different bulbs of different lights may have the same unique id string, and so may
    different groups, and a bulb and a group: the strings do not identify what they name. *)
Theorem unique_id_strings_refuted :
  (exists a b, a <> b /\ bulb_string a = bulb_string b /\ bu_light a <> "" /\ bu_group a <> "" /\ bu_bulb a <> "" /\ bu_light b <> "" /\ bu_group b <> "" /\ bu_bulb b <> "") /\
  (exists a b, a <> b /\ group_string a = group_string b /\ gu_light a <> "" /\ gu_group a <> "" /\ gu_light b <> "" /\ gu_group b <> "") /\
  (exists a b, uid_eqb (bulb_string a) (group_string b) = true /\ bu_light a <> "" /\ bu_group a <> "" /\ bu_bulb a <> "" /\ gu_light b <> "" /\ gu_group b <> "").
Proof.
  split; [|split].
  - exists (mk_bulb_uid "north-east" "1" "red"), (mk_bulb_uid "north" "east-1" "red"). repeat split; discriminate.
  - exists (mk_group_uid "north-east" "1"), (mk_group_uid "north" "east-1"). repeat split; discriminate.
  - exists (mk_bulb_uid "north" "east" "1"), (mk_group_uid "north" "east-1"). repeat split; discriminate.
Qed.
Print Assumptions unique_id_strings_refuted.

(** If two of the three parts never contain the delimiter, the strings are unique. *)
Theorem unique_bulb_strings : forall a b,
  bulb_string a = bulb_string b ->
  (without_dash (bu_light a) /\ without_dash (bu_group a) /\ without_dash (bu_light b) /\ without_dash (bu_group b)) \/
  (without_dash (bu_light a) /\ without_dash (bu_bulb a) /\ without_dash (bu_light b) /\ without_dash (bu_bulb b)) \/
  (without_dash (bu_group a) /\ without_dash (bu_bulb a) /\ without_dash (bu_group b) /\ without_dash (bu_bulb b)) ->
  a = b.
Proof.
  intros [l1 g1 b1] [l2 g2 b2] E. unfold bulb_string, delimiter, without_dash in *. cbn [bu_light bu_group bu_bulb] in *.
  apply (f_equal list_ascii_of_string) in E. rewrite !list_app in E. cbn [list_ascii_of_string app] in E.
  intros [(N1 & N2 & N3 & N4)|[(N1 & N2 & N3 & N4)|(N1 & N2 & N3 & N4)]].
  - apply split_first in E; auto. destruct E as [E1 E]. apply split_first in E; auto. destruct E as [E2 E3].
    apply list_inj in E1, E2, E3. congruence.
  - apply split_first in E; auto. destruct E as [E1 E]. apply split_last in E; auto. destruct E as [E2 E3].
    apply list_inj in E1, E2, E3. congruence.
  - rewrite (app_comm_cons (list_ascii_of_string g1)), (app_comm_cons (list_ascii_of_string g2)), !app_assoc in E.
    apply split_last in E; auto. destruct E as [E E3]. apply split_last in E; auto. destruct E as [E1 E2].
    apply list_inj in E1, E2, E3. congruence.
Qed.
Print Assumptions unique_bulb_strings.

Theorem unique_group_strings : forall a b,
  group_string a = group_string b ->
  (without_dash (gu_light a) /\ without_dash (gu_light b)) \/ (without_dash (gu_group a) /\ without_dash (gu_group b)) ->
  a = b.
Proof.
  intros [l1 g1] [l2 g2] E. unfold group_string, delimiter, without_dash in *. cbn [gu_light gu_group] in *.
  apply (f_equal list_ascii_of_string) in E. rewrite !list_app in E. cbn [list_ascii_of_string app] in E.
  intros [[N1 N2]|[N1 N2]]; [apply split_first in E|apply split_last in E]; auto; destruct E as [E1 E2]; apply list_inj in E1, E2; congruence.
Qed.
Print Assumptions unique_group_strings.

Example unique_strings_example :
  let a := mk_bulb_uid "north" "g" "red-1" in let b := mk_bulb_uid "north" "h" "red-1" in
  without_dash (bu_light a) /\ without_dash (bu_group a) /\ ~ without_dash (bu_bulb a) /\ bulb_string a <> bulb_string b.
Proof. unfold without_dash. cbn. repeat split; try discriminate; intuition discriminate. Qed.

(** ** Comparisons *)
(** Equality compares the parts, not the strings; equal ids hash alike, and different ids
    give the hasher different words. *)
Theorem unique_id_equality : 
  (forall a b, bulb_uid_eqb a b = true <-> a = b) /\ (forall a b, group_uid_eqb a b = true <-> a = b) /\
  (forall a b, bulb_hash_words a = bulb_hash_words b <-> a = b) /\ (forall a b, group_hash_words a = group_hash_words b <-> a = b).
Proof.
  split; [|split; [|split]]; intros a b; destruct a, b; unfold bulb_uid_eqb, group_uid_eqb, bulb_hash_words, group_hash_words; cbn;
    rewrite ?andb_true_iff, ?String.eqb_eq; split; intro E; try congruence.
  - destruct E as [[-> ->] ->]. reflexivity.
  - injection E as -> -> ->. auto.
  - destruct E as [-> ->]. reflexivity.
  - injection E as -> ->. auto.
Qed.
Print Assumptions unique_id_equality.

Lemma ltb_irrefl : forall s, (s <? s) = false.
Proof. intro s. unfold String.ltb. pose proof (String.compare_antisym s s) as E. destruct (String.compare s s); cbn in E; congruence. Qed.
Lemma ltb_trans : forall s t u, (s <? t) = true -> (t <? u) = true -> (s <? u) = true.
Proof.
  assert (L : forall s t, (s <? t) = true <-> String.compare s t = Lt) by (intros s t; unfold String.ltb; destruct (String.compare s t); split; congruence).
  intros s t u. rewrite !L. revert t u. induction s as [|x s IH]; intros [|y t] [|z u]; cbn; try congruence.
  unfold Ascii.compare. destruct (N.compare_spec (N_of_ascii x) (N_of_ascii y)) as [E|E|E];
    destruct (N.compare_spec (N_of_ascii y) (N_of_ascii z)) as [F|F|F]; try congruence; intros A B.
  - rewrite E, F, N.compare_refl. exact (IH _ _ A B).
  - rewrite E. rewrite (proj2 (N.compare_lt_iff _ _) F). reflexivity.
  - rewrite <- F. rewrite (proj2 (N.compare_lt_iff _ _) E). reflexivity.
  - rewrite (proj2 (N.compare_lt_iff _ _) (N.lt_trans _ _ _ E F)). reflexivity.
Qed.
Lemma ltb_total : forall s t, (s <? t) = true \/ s = t \/ (t <? s) = true.
Proof.
  intros s t. unfold String.ltb. pose proof (String.compare_antisym s t) as E. pose proof (String.compare_eq_iff s t) as F.
  destruct (String.compare s t); destruct (String.compare t s); cbn in E; auto; discriminate.
Qed.
Lemma ltb_asym : forall s t, (s <? t) = true -> (t <? s) = false.
Proof. intros s t A. destruct (t <? s) eqn:B; auto. pose proof (ltb_trans _ _ _ A B) as C. rewrite ltb_irrefl in C. discriminate. Qed.

(** Comparing first components, then second ones. *)
Definition lex {A B} (f : A -> string) (g : A -> B) (l : B -> B -> bool) (a b : A) : bool :=
  if f a <? f b then true else if f b <? f a then false else l (g a) (g b).
Lemma lex_order {A B} (f : A -> string) (g : A -> B) (l : B -> B -> bool) :
  (forall a b, f a = f b -> g a = g b -> a = b) -> strict_total_order l -> strict_total_order (lex f g l).
Proof.
  intros Inj (I & T & Tot). unfold lex. split; [|split].
  - intro a. rewrite ltb_irrefl. apply I.
  - intros a b c. destruct (ltb_total (f a) (f b)) as [E|[E|E]], (ltb_total (f b) (f c)) as [F|[F|F]]; intros P Q.
    + rewrite (ltb_trans _ _ _ E F). reflexivity.
    + rewrite <- F, E. reflexivity.
    + rewrite (ltb_asym _ _ F), F in Q. discriminate.
    + rewrite E, F. reflexivity.
    + rewrite E, ltb_irrefl in P. rewrite F, ltb_irrefl in Q. rewrite E, F, ltb_irrefl. exact (T _ _ _ P Q).
    + rewrite (ltb_asym _ _ F), F in Q. discriminate.
    + rewrite (ltb_asym _ _ E), E in P. discriminate.
    + rewrite (ltb_asym _ _ E), E in P. discriminate.
    + rewrite (ltb_asym _ _ E), E in P. discriminate.
  - intros a b. destruct (ltb_total (f a) (f b)) as [E|[E|E]].
    + left. rewrite E. reflexivity.
    + rewrite E, ltb_irrefl. destruct (Tot (g a) (g b)) as [F|[F|F]]; auto.
    + right. right. rewrite E. reflexivity.
Qed.

(** Both orders are strict total orders on the ids: ordered containers work. *)
Theorem unique_id_order : strict_total_order bulb_uid_less /\ strict_total_order group_uid_less.
Proof.
  assert (L : strict_total_order String.ltb) by (split; [exact ltb_irrefl|split; [exact ltb_trans|exact ltb_total]]).
  assert (P : strict_total_order (lex (A := string * string) fst snd String.ltb)).
  { apply lex_order; auto. intros [] []; cbn. congruence. }
  split.
  - apply (lex_order (A := bulb_uid) bu_light (fun b => (bu_group b, bu_bulb b)) (lex (A := string * string) fst snd String.ltb)); [|exact P]. intros [] []. cbn. congruence.
  - apply (lex_order (A := group_uid) gu_light gu_group String.ltb); [|exact L]. intros [] []. cbn. congruence.
Qed.
Print Assumptions unique_id_order.

Example unique_id_order_example :
  bulb_uid_less (mk_bulb_uid "a" "b" "c") (mk_bulb_uid "a" "b-c" "d") = true /\
  bulb_uid_less (mk_bulb_uid "a" "b" "z") (mk_bulb_uid "a" "c" "a") = true /\
  group_uid_less (mk_group_uid "b" "a") (mk_group_uid "a" "b") = false.
Proof. repeat split. Qed.
