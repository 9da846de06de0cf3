(** Strings, search paths, suffixes and directory trees. *)
From Coq Require Import String Ascii List Bool Lia Arith.
From Verif Require Import Base Plugins_Model Plugins_Spec.
Import ListNotations.
Local Open Scope string_scope.

Lemma sapp_nil : forall s, s ++ "" = s.
Proof. induction s as [| c s IH]; cbn [append]; [| rewrite IH]; reflexivity. Qed.
Lemma sapp_assoc : forall a b c : string, (a ++ b) ++ c = a ++ b ++ c.
Proof. induction a as [| x a IH]; intros b c; cbn [append]; [| rewrite IH]; reflexivity. Qed.
Lemma sapp_inj : forall a b c : string, a ++ b = a ++ c -> b = c.
Proof. induction a as [| x a IH]; intros b c H; cbn [append] in H; [exact H | injection H as H; auto]. Qed.
Lemma slen_app : forall a b, String.length (a ++ b) = (String.length a + String.length b)%nat.
Proof. induction a as [| x a IH]; intros b; cbn [append String.length]; [| rewrite IH]; reflexivity. Qed.
Lemma contains_app : forall c a b, contains c (a ++ b) <-> contains c a \/ contains c b.
Proof.
  induction a as [| x a IH]; intros b; cbn [append contains]; [tauto |]. rewrite IH. tauto.
Qed.
(** Texts without the separator in front of the first separator are equal. *)
Lemma first_sep : forall c a b a' b', ~ contains c a -> ~ contains c a' -> a ++ String c b = a' ++ String c b' -> a = a' /\ b = b'.
Proof.
  induction a as [| x a IH]; intros b [| y a'] b' Na Na' H; cbn [append contains] in *.
  - injection H as H. auto.
  - injection H as H _. subst. tauto.
  - injection H as H _. subst. tauto.
  - injection H as -> H. destruct (IH b a' b') as [-> ->]; auto.
Qed.
Lemma no_sep : forall c a b a', ~ contains c a' -> a ++ String c b = a' -> False.
Proof. intros c a b a' N H. apply N. rewrite <- H, contains_app. right. cbn [contains]. auto. Qed.

(** ** Search paths *)
Lemma getline_colon : forall p r, ~ contains ":" p -> getline (p ++ String ":" r) = (p, r).
Proof.
  induction p as [| c p IH]; intros r N; cbn [append getline contains] in *; [reflexivity |].
  destruct (Ascii.eqb_spec c ":") as [-> | _]; [tauto |]. rewrite IH by tauto. reflexivity.
Qed.
Lemma getline_end : forall p, ~ contains ":" p -> getline p = (p, "").
Proof.
  induction p as [| c p IH]; intros N; cbn [getline contains] in *; [reflexivity |].
  destruct (Ascii.eqb_spec c ":") as [-> | _]; [tauto |]. rewrite IH by tauto. reflexivity.
Qed.
Lemma getlines_nil : forall fuel acc, getlines fuel "" acc = acc.
Proof. intros [| n] acc; reflexivity. Qed.
Lemma getlines_colons : forall l fuel r acc, Forall (fun p => ~ contains ":" p) l -> (String.length (colons l ++ r) <= fuel)%nat ->
  exists fuel', getlines fuel (colons l ++ r) acc = getlines fuel' r (acc ++ l)%list /\ (String.length r <= fuel')%nat.
Proof.
  induction l as [| p l IH]; intros fuel r acc F L; cbn [colons append] in *.
  - exists fuel. rewrite app_nil_r. auto.
  - inversion F as [| ? ? Np F']; subst. rewrite !sapp_assoc in *. cbn [append] in *.
    assert (exists n, fuel = S n) as [n ->]. { rewrite slen_app in L. cbn [String.length] in L. destruct fuel; [lia | eauto]. }
    destruct (IH n r (acc ++ [p])%list F') as (f' & E & L').
    { rewrite slen_app in L. cbn [String.length] in L. lia. }
    exists f'. split; [| exact L']. rewrite <- app_assoc in E. cbn [List.app] in E. rewrite <- E.
    assert (NE : exists c s, p ++ String ":" (colons l ++ r) = String c s) by (destruct p; cbn [append]; eauto).
    pose proof (getline_colon p (colons l ++ r) Np) as G. destruct NE as (c & s & NE). rewrite NE in *. cbn [getlines]. rewrite G. reflexivity.
Qed.
Lemma environment_parts : forall s l, parts s l -> GetAllPathsFromEnvironment (Some s) = l.
Proof.
  intros s l [l' F | l' q F Nq Q]; cbn [GetAllPathsFromEnvironment].
  - destruct (getlines_colons l' (String.length (colons l')) "" [] F) as (f & E & _); [rewrite sapp_nil; lia |].
    rewrite sapp_nil in E. rewrite E, getlines_nil. reflexivity.
  - destruct (getlines_colons l' (String.length (colons l' ++ q)) q [] F) as (f & E & L); [lia |]. rewrite E.
    destruct q as [| c q]; [contradiction |]. destruct f as [| f]; [cbn [String.length] in L; lia |]. cbn [getlines].
    rewrite (getline_end _ Nq), getlines_nil. reflexivity.
Qed.
Lemma split_first : forall s, (~ contains ":" s) \/ exists a b, s = a ++ String ":" b /\ ~ contains ":" a.
Proof.
  induction s as [| c s IH]; [left; auto |]. destruct (ascii_dec c ":") as [-> | N].
  - right. exists "", s. split; [reflexivity | auto].
  - destruct IH as [IH | (a & b & -> & Na)].
    + left. cbn [contains]. intros [H | H]; [congruence | auto].
    + right. exists (String c a), b. split; [reflexivity |]. cbn [contains]. intros [H | H]; [congruence | auto].
Qed.
Lemma parts_total : forall n s, (String.length s <= n)%nat -> exists l, parts s l.
Proof.
  induction n as [| n IH]; intros s L.
  - destruct s; [| cbn [String.length] in L; lia]. exists []. apply (parts_closed []). constructor.
  - destruct (split_first s) as [N | (a & b & -> & Na)].
    + destruct s as [| c s]; [exists []; apply (parts_closed []); constructor |]. exists [String c s].
      apply (parts_open [] (String c s)); [constructor | exact N | discriminate].
    + destruct (IH b) as [l P]; [rewrite slen_app in L; cbn [String.length] in L; lia |]. exists (a :: l).
      inversion P as [l' F | l' q F Nq Q]; subst.
      * apply (parts_closed (a :: l)). constructor; assumption.
      * assert (P' : parts (colons (a :: l') ++ q) ((a :: l') ++ [q])) by (apply parts_open; auto).
        cbn [colons] in P'. rewrite !sapp_assoc in P'. exact P'.
Qed.

(** ** Suffixes *)
Lemma after_dot_none : forall s, after_last_dot s = None <-> ~ contains "." s.
Proof.
  induction s as [| c s IH]; cbn [after_last_dot contains]; [tauto |].
  destruct (after_last_dot s) as [x |].
  - split; [discriminate |]. intros N. exfalso. assert (H : ~ contains "." s) by tauto. apply IH in H. discriminate.
  - destruct (Ascii.eqb_spec c ".") as [-> | N]; [split; [discriminate | tauto] |].
    split; [| reflexivity]. intros _ [H | H]; [congruence |]. destruct IH as [IH _]. exact (IH eq_refl H).
Qed.
Lemma after_dot_some : forall s x, after_last_dot s = Some x <-> ~ contains "." x /\ exists b, s = b ++ "." ++ x.
Proof.
  induction s as [| c s IH]; intros x; cbn [after_last_dot].
  - split; [discriminate |]. intros [_ [[| ? b] H]]; discriminate.
  - destruct (after_last_dot s) as [y |] eqn:E.
    + pose proof (proj1 (IH y) eq_refl) as (Ny & b & Es). split.
      * intros H. injection H as <-. split; [exact Ny |]. exists (String c b). rewrite Es. reflexivity.
      * intros (Nx & b' & Eb). apply IH. split; [exact Nx |]. destruct b' as [| c' b']; cbn [append] in Eb.
        -- injection Eb as _ Eb. exfalso. rewrite Eb in Es. cbn [append] in Es. symmetry in Es. exact (no_sep _ _ _ _ Nx Es).
        -- injection Eb as _ Eb. exists b'. exact Eb.
    + pose proof (proj1 (after_dot_none s) E) as Ns. destruct (Ascii.eqb_spec c ".") as [-> | N].
      * split; [intros H; injection H as <-; split; [exact Ns | exists ""; reflexivity] |].
        intros (Nx & [| c' b'] & Eb); cbn [append] in Eb; injection Eb as Eb; [congruence |].
        exfalso. apply Ns. rewrite H, contains_app. right. cbn [contains]. auto.
      * split; [discriminate |]. intros (Nx & [| c' b'] & Eb); cbn [append] in Eb; injection Eb as Ec Eb; [congruence |].
        exfalso. apply Ns. rewrite Eb, contains_app. right. cbn [contains]. auto.
Qed.

(** ** Entry paths *)
Lemma ends_slash : forall s, ends_with_slash s = true <-> exists x, s = x ++ "/".
Proof.
  induction s as [| c s IH]; cbn [ends_with_slash].
  - split; [discriminate |]. intros [[| ? x] H]; discriminate.
  - destruct s as [| d s].
    + destruct (Ascii.eqb_spec c "/") as [-> | N]; split; try discriminate; [intros _; exists ""; reflexivity | reflexivity |].
      intros [[| y x] H]; cbn [append] in H; [injection H as H; congruence |]. injection H as _ H. destruct x; discriminate.
    + rewrite IH. split; intros [x H].
      * exists (String c x). rewrite H. reflexivity.
      * destruct x as [| y x]; cbn [append] in H; [discriminate |]. injection H as _ H. eauto.
Qed.
Lemma with_slash_unique : forall d a b, with_slash d a -> with_slash d b -> a = b.
Proof.
  intros d a b Ha Hb. inversion Ha as [x Hx | d1 N]; subst; inversion Hb as [y Hy | d2 M]; subst; auto.
  - exfalso. eauto.
  - exfalso. eauto.
Qed.
Lemma with_slash_total : forall d, exists b, with_slash d b.
Proof.
  intros d. destruct (ends_with_slash d) eqn:E.
  - apply ends_slash in E as [x ->]. eexists. constructor.
  - eexists. apply slash_added. intros H. apply ends_slash in H. congruence.
Qed.
Lemma entry_path_slash : forall d b name, with_slash d b -> entry_path d name = b ++ name.
Proof.
  intros d b name H. unfold entry_path. inversion H as [x | d' N]; subst.
  - assert (E : ends_with_slash (x ++ "/") = true) by (apply ends_slash; eauto). rewrite E. reflexivity.
  - destruct (ends_with_slash d) eqn:E; [apply ends_slash in E; contradiction |]. rewrite sapp_assoc. reflexivity.
Qed.
Lemma last_char : forall x y : string, x ++ "/" = y -> contains "/" y.
Proof. intros x y <-. rewrite contains_app. right. left. reflexivity. Qed.
Lemma app_slash : forall name a x, name <> "" -> ~ contains "/" name -> a ++ name = x ++ "/" -> False.
Proof.
  intros name a. induction a as [| c a IH]; intros x Ne N H; cbn [append] in H.
  - apply N. rewrite H. eapply last_char. reflexivity.
  - destruct x as [| d x]; cbn [append] in H; injection H as _ H; [| exact (IH _ Ne N H)].
    destruct a; cbn [append] in H; [contradiction | discriminate].
Qed.
Lemma entry_with_slash : forall d name, name <> "" -> ~ contains "/" name -> with_slash (entry_path d name) (entry_path d name ++ "/").
Proof.
  intros d name Ne N. destruct (with_slash_total d) as [b Hb]. rewrite (entry_path_slash _ _ _ Hb).
  apply slash_added. intros [x H]. exact (app_slash _ _ _ Ne N H).
Qed.

Lemma concat_cons : forall a b l, String.concat "/" (a :: b :: l) = a ++ "/" ++ String.concat "/" (b :: l).
Proof. reflexivity. Qed.
Lemma concat_inj : forall l l', l <> [] -> l' <> [] -> Forall (fun n => ~ contains "/" n) l -> Forall (fun n => ~ contains "/" n) l' ->
  String.concat "/" l = String.concat "/" l' -> l = l'.
Proof.
  induction l as [| a l IH]; intros [| a' l'] E E' F F' H; try contradiction.
  inversion F as [| ? ? Na Fl]; inversion F' as [| ? ? Na' Fl']; subst.
  destruct l as [| b l], l' as [| b' l'].
  - cbn [String.concat] in H. subst. reflexivity.
  - rewrite concat_cons in H. cbn [String.concat append] in H. exfalso. symmetry in H. exact (no_sep _ _ _ _ Na H).
  - rewrite concat_cons in H. cbn [append] in H. cbn [String.concat] in H. exfalso. exact (no_sep _ _ _ _ Na' H).
  - rewrite !concat_cons in H. cbn [append] in H. apply first_sep in H as [-> H]; auto. f_equal. apply IH; auto; discriminate.
Qed.
