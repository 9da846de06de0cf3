(** Lemmas for the loaders: documents and traffic lights. *)
From Coq Require Import String List Bool Arith ZArith Lia.
From Verif Require Import Base Maps Loaders_Model Loaders_Spec.
Import ListNotations.
Local Open Scope string_scope.

(** ** Outcomes *)
Lemma obind_ok {A B} : forall (o : outcome A) (f : A -> outcome B) b, obind o f = Ok b <-> exists a, o = Ok a /\ f a = Ok b.
Proof. intros [a| |] f b; cbn; split; intro H; try discriminate; [exists a; auto| | |]; destruct H as (x & E & F); try discriminate. injection E as <-. exact F. Qed.
Lemma omap_ok {A B} : forall (o : outcome A) (f : A -> B) b, omap f o = Ok b <-> exists a, o = Ok a /\ f a = b.
Proof. intros [a| |] f b; cbn; split; intro H; try discriminate; try (destruct H as (x & E & F); discriminate). - injection H as <-. eauto. - destruct H as (x & E & F). injection E as <-. congruence. Qed.
Lemma throw_unless_ok {A} : forall c (o : outcome A) a, throw_unless c o = Ok a <-> c = true /\ o = Ok a.
Proof. intros [] o a; cbn; intuition discriminate. Qed.
Lemma conv_ok {A} : forall (o : option A) a, conv o = Ok a <-> o = Some a.
Proof. intros [x|] a; cbn; split; intro H; try discriminate; congruence. Qed.
Lemma each_ok_ok {A B} : forall (f : A -> outcome B) l m, each_ok f l = Ok m <-> Forall2 (fun x y => f x = Ok y) l m.
Proof.
  intros f l. induction l as [|x l IH]; intro m; cbn.
  - split; intro H; [injection H as <-; constructor|inversion H; auto].
  - rewrite obind_ok. split.
    + intros (y & E & H). rewrite obind_ok in H. destruct H as (ys & F & G). injection G as <-. constructor; auto. apply IH. exact F.
    + intro H. inversion H as [|x' y l' ys E F]; subst. exists y. split; auto. rewrite obind_ok. exists ys. split; auto. apply IH. exact F.
Qed.
Lemma Forall2_iff {A B} : forall (P Q : A -> B -> Prop) l m, (forall x y, P x y <-> Q x y) -> Forall2 P l m <-> Forall2 Q l m.
Proof. intros P Q l m H. split; intro F; induction F; constructor; auto; apply H; auto. Qed.
Lemma obind_no_ub {A B} : forall (o : outcome A) (f : A -> outcome B), o <> UB -> (forall a, o = Ok a -> f a <> UB) -> obind o f <> UB.
Proof. intros [a| |] f N H; cbn; auto; discriminate. Qed.
Lemma omap_no_ub {A B} : forall (o : outcome A) (f : A -> B), o <> UB -> omap f o <> UB.
Proof. intros [a| |] f N; cbn; auto; discriminate. Qed.
Lemma throw_unless_no_ub {A} : forall c (o : outcome A), (c = true -> o <> UB) -> throw_unless c o <> UB.
Proof. intros [] o N; cbn; auto; discriminate. Qed.
Lemma conv_no_ub {A} : forall (o : option A), conv o <> UB.
Proof. intros [x|]; cbn; discriminate. Qed.
Lemma each_ok_no_ub {A B} : forall (f : A -> outcome B) l, (forall x, In x l -> f x <> UB) -> each_ok f l <> UB.
Proof.
  intros f l. induction l as [|x l IH]; intro N; cbn; [discriminate|]. apply obind_no_ub; [apply N; left; auto|].
  intros y _. apply obind_no_ub; [apply IH; intros z I; apply N; right; exact I|]. discriminate.
Qed.

(** ** Lookup *)
Lemma lookup_entry : forall l k v, v <> Undefined -> (lookup k l = v <-> entry (Map l) k v).
Proof.
  intros l k v N. unfold entry. induction l as [|[kn w] l IH].
  - cbn. split; intro H; [congruence|]. destruct H as (_ & l1 & l2 & E & _). destruct l1; discriminate.
  - assert (Step : kn <> Scalar k -> ((exists l1 l2, Map l = Map (l1 ++ (Scalar k, v) :: l2)%list /\ (forall w, ~ In (Scalar k, w) l1)) <->
                    exists l1 l2, Map ((kn, w) :: l) = Map (l1 ++ (Scalar k, v) :: l2)%list /\ (forall w, ~ In (Scalar k, w) l1))).
    { intro Nk. split; intros (l1 & l2 & E & H).
      - exists ((kn, w) :: l1), l2. injection E as ->. split; [reflexivity|]. intros u [I|I]; [congruence|]. exact (H _ I).
      - destruct l1 as [|p l1]; cbn in E; injection E as E1 E2; [congruence|]. exists l1, l2. subst. split; [reflexivity|]. intros u I. apply (H u). right. exact I. }
    assert (Skip : kn <> Scalar k -> (lookup k l = v <-> v <> Undefined /\ exists l1 l2, Map ((kn, w) :: l) = Map (l1 ++ (Scalar k, v) :: l2)%list /\ (forall w, ~ In (Scalar k, w) l1))).
    { intro Nk. rewrite IH, (Step Nk). tauto. }
    destruct kn as [| |k'| |]; cbn [lookup]; try (apply Skip; discriminate).
    destruct (String.eqb_spec k k') as [->|Nk]; [|apply Skip; congruence].
    split.
    + intros <-. split; auto. exists [], l. split; [reflexivity|]. intros u [].
    + intros (_ & l1 & l2 & E & H). destruct l1 as [|p l1]; cbn in E; injection E as E1 E2; [congruence|]. subst p. exfalso. apply (H w). left. reflexivity.
Qed.
Lemma defined_iff : forall n, is_defined n = true <-> n <> Undefined.
Proof. intros []; cbn; split; intro H; congruence. Qed.
Lemma get_entry : forall n k v, v <> Undefined -> (get n k = Ok v <-> entry n k v).
Proof.
  intros n k v N. destruct n as [| | |l|l]; cbn; try (split; [congruence|intros (_ & l1 & l2 & E & _); discriminate]).
  rewrite <- lookup_entry by auto. split; congruence.
Qed.
Lemma get_absent : forall n k, get n k = Ok Undefined -> absent n k.
Proof.
  intros n k E v H. pose proof H as (N & _). apply get_entry in H; auto. rewrite E in H. congruence.
Qed.
Lemma absent_get : forall n k, n <> Undefined -> (forall s, n <> Scalar s) -> absent n k -> get n k = Ok Undefined.
Proof.
  intros n k N1 N2 A. destruct n as [| |s|l|l]; cbn; [congruence|auto|destruct (N2 s eq_refl)|auto|].
  destruct (lookup k l) eqn:E; auto; exfalso; (eapply A; apply lookup_entry; [|exact E]; discriminate).
Qed.
Lemma need_ok : forall n k v, need n k = Ok v <-> entry n k v.
Proof.
  intros n k v. unfold need. rewrite obind_ok. split.
  - intros (w & E & H). rewrite throw_unless_ok in H. destruct H as [F G]. injection G as <-. rewrite defined_iff in F. apply get_entry; auto.
  - intro H. pose proof H as (N & _). exists v. split; [apply get_entry; auto|]. rewrite throw_unless_ok. split; auto. apply defined_iff. exact N.
Qed.
Lemma need_no_ub : forall n k, need n k <> UB.
Proof. intros n k. unfold need. apply obind_no_ub; [destruct n; discriminate|]. intros a _. apply throw_unless_no_ub. discriminate. Qed.
Lemma get_no_ub : forall n k, get n k <> UB.
Proof. intros [] k; discriminate. Qed.
Lemma is_map_iff : forall n, is_map n = true <-> a_map n.
Proof. intro n. unfold a_map. destruct n; cbn; split; intro H; try discriminate; try (destruct H; discriminate); eauto. Qed.
Lemma is_seq_iff : forall n, is_seq n = true <-> n = Seq (elements n).
Proof. intros []; cbn; split; intro H; congruence. Qed.
Lemma entry_map : forall n k v, entry n k v -> a_map n.
Proof. intros n k v (_ & l1 & l2 & E & _). exists (l1 ++ (Scalar k, v) :: l2)%list. exact E. Qed.
Lemma entry_functional : forall n k v w, entry n k v -> entry n k w -> v = w.
Proof. intros n k v w E F. pose proof E as (N & _). pose proof F as (M & _). apply get_entry in E; auto. apply get_entry in F; auto. congruence. Qed.

Section Texts.
Context {D : Type} (to_double : string -> option D) (to_int : string -> option Z) (null_text : option string) (Dleb Deqb : D -> D -> bool).
Notation text := (text null_text).
Notation ident := (ident null_text).
Notation as_string := (as_string null_text).
Notation as_id := (as_id null_text).
Notation as_double := (as_double to_double).
Notation number := (number to_double).
Lemma as_string_ok : forall n s, as_string n = Ok s <-> text n s.
Proof.
  intros n s. unfold Loaders_Model.as_string, Loaders_Spec.text. destruct n; cbn; try (split; [discriminate|intros [E|[E _]]; discriminate]).
  - rewrite conv_ok. split; [auto|]. intros [E|[_ E]]; congruence.
  - split; [intro E; left; congruence|]. intros [E|[E _]]; congruence.
Qed.
Lemma as_id_ok : forall n s, as_id n = Ok s <-> ident n s.
Proof.
  intros n s. unfold Loaders_Model.as_id, Loaders_Spec.ident. rewrite obind_ok. split.
  - intros (t & E & H). rewrite throw_unless_ok in H. destruct H as [F G]. injection G as <-. rewrite as_string_ok in E. split; auto.
    rewrite negb_true_iff in F. apply String.eqb_neq. exact F.
  - intros [E N]. exists s. rewrite as_string_ok. split; auto. rewrite throw_unless_ok. split; auto. rewrite negb_true_iff. apply String.eqb_neq. exact N.
Qed.
Lemma as_double_ok : forall n x, as_double n = Ok x <-> number n x.
Proof.
  intros n x. unfold Loaders_Model.as_double, Loaders_Spec.number. destruct n; try (split; [discriminate|intros (t & E & _); discriminate]).
  rewrite conv_ok. split; [eauto|]. intros (t & E & F). congruence.
Qed.
Lemma text_fun : forall n s t, text n s -> text n t -> s = t.
Proof. intros n s t A B. rewrite <- as_string_ok in A, B. congruence. Qed.
Lemma as_string_no_ub : forall n, as_string n <> UB.
Proof. intros []; cbn; try discriminate. apply conv_no_ub. Qed.
Lemma as_id_no_ub : forall n, as_id n <> UB.
Proof. intros n. apply obind_no_ub; [apply as_string_no_ub|]. intros a _. apply throw_unless_no_ub. discriminate. Qed.
Lemma as_double_no_ub : forall n, as_double n <> UB.
Proof. intros []; cbn; try discriminate. apply conv_no_ub. Qed.

Lemma as_vec3_ok : forall n k v, (exists m, entry n k m /\ as_vec3 to_double m = Ok v) <-> vec3_at to_double n k v.
Proof.
  intros n k [[x y] z]. unfold vec3_at, as_vec3. split.
  - intros (m & E & H). destruct m as [| | |[|a [|b [|c [|]]]]|]; try discriminate.
    rewrite obind_ok in H. destruct H as (x' & H1 & H). rewrite obind_ok in H. destruct H as (y' & H2 & H). rewrite obind_ok in H. destruct H as (z' & H3 & H).
    injection H as -> -> ->. rewrite as_double_ok in H1, H2, H3. exists a, b, c. auto.
  - intros (a & b & c & E & H1 & H2 & H3). exists (Seq [a; b; c]). split; auto. rewrite <- as_double_ok in H1, H2, H3. rewrite H1, H2, H3. reflexivity.
Qed.
Lemma as_vec4_ok : forall n k v, (exists m, entry n k m /\ as_vec4 to_double m = Ok v) <-> vec4_at to_double n k v.
Proof.
  intros n k [[[w x] y] z]. unfold vec4_at, as_vec4. split.
  - intros (m & E & H). destruct m as [| | |[|a [|b [|c [|d [|]]]]]|]; try discriminate.
    rewrite obind_ok in H. destruct H as (w' & H0 & H). rewrite obind_ok in H. destruct H as (x' & H1 & H). rewrite obind_ok in H. destruct H as (y' & H2 & H). rewrite obind_ok in H. destruct H as (z' & H3 & H).
    injection H as -> -> -> ->. rewrite as_double_ok in H0, H1, H2, H3. exists a, b, c, d. auto.
  - intros (a & b & c & d & E & H0 & H1 & H2 & H3). exists (Seq [a; b; c; d]). split; auto. rewrite <- as_double_ok in H0, H1, H2, H3. rewrite H0, H1, H2, H3. reflexivity.
Qed.
Lemma as_vec3_no_ub : forall n, as_vec3 to_double n <> UB.
Proof.
  intro n. unfold as_vec3. destruct n as [| | |[|a [|b [|c [|]]]]|]; try discriminate.
  repeat (apply obind_no_ub; [apply as_double_no_ub|intros ? _]). discriminate.
Qed.
Lemma as_vec4_no_ub : forall n, as_vec4 to_double n <> UB.
Proof.
  intro n. unfold as_vec4. destruct n as [| | |[|a [|b [|c [|d [|]]]]]|]; try discriminate.
  repeat (apply obind_no_ub; [apply as_double_no_ub|intros ? _]). discriminate.
Qed.
Lemma as_box_ok : forall m lo hi, as_box to_double m = Ok (lo, hi) <-> vec3_at to_double m "min" lo /\ vec3_at to_double m "max" hi.
Proof.
  intros m lo hi. unfold as_box. rewrite throw_unless_ok, <- !as_vec3_ok. split.
  - intros [M H]. rewrite obind_ok in H. destruct H as (a & E1 & H). rewrite obind_ok in H. destruct H as (b & E2 & H).
    rewrite obind_ok in H. destruct H as (v & E3 & H). rewrite obind_ok in H. destruct H as (w & E4 & H). injection H as -> ->.
    split; [exists a|exists b]; split; auto; apply get_entry; auto; intros ->; discriminate.
  - intros [(a & E1 & F1) (b & E2 & F2)]. split; [apply is_map_iff; exact (entry_map _ _ _ E1)|].
    pose proof E1 as (N1 & _). pose proof E2 as (N2 & _). apply get_entry in E1; auto. apply get_entry in E2; auto. rewrite E1, E2. cbn. rewrite F1, F2. reflexivity.
Qed.
Lemma color_ok : forall s c, color_of s = Some c <-> s = color_name c.
Proof.
  intros s c. unfold color_of. destruct (String.eqb_spec s "Red") as [->|N1]; [destruct c; cbn; split; congruence|].
  destruct (String.eqb_spec s "Yellow") as [->|N2]; [destruct c; cbn; split; congruence|].
  destruct (String.eqb_spec s "Green") as [->|N3]; [destruct c; cbn; split; congruence|]. destruct c; cbn; split; congruence.
Qed.
Lemma type_ok : forall s c, type_of s = Some c <-> s = type_name c.
Proof.
  intros s c. unfold type_of. destruct (String.eqb_spec s "Round") as [->|N1]; [destruct c; cbn; split; congruence|].
  destruct (String.eqb_spec s "Arrow") as [->|N2]; [destruct c; cbn; split; congruence|]. destruct c; cbn; split; congruence.
Qed.
Lemma state_ok : forall s c, state_of s = Some c <-> s = state_name c.
Proof.
  intros s c. unfold state_of. destruct (String.eqb_spec s "Off") as [->|N1]; [destruct c; cbn; split; congruence|].
  destruct (String.eqb_spec s "On") as [->|N2]; [destruct c; cbn; split; congruence|].
  destruct (String.eqb_spec s "Blinking") as [->|N3]; [destruct c; cbn; split; congruence|]. destruct c; cbn; split; congruence.
Qed.
Lemma as_states_ok : forall n m, as_states null_text n = Ok m <-> exists l, n = Seq l /\ Forall2 (fun v s => text v (state_name s)) l m.
Proof.
  intros n m. unfold as_states. rewrite throw_unless_ok, is_seq_iff, each_ok_ok.
  assert (A : forall x y, obind (as_string x) (fun s => conv (state_of s)) = Ok y <-> text x (state_name y)).
  { intros x y. rewrite obind_ok. split.
    - intros (s & E & F). rewrite conv_ok, state_ok in F. subst s. apply as_string_ok. exact E.
    - intro T. exists (state_name y). rewrite as_string_ok, conv_ok, state_ok. auto. }
  split.
  - intros [E F]. exists (elements n). split; auto. revert F. apply Forall2_iff. intros x y. rewrite A. reflexivity.
  - intros (l & -> & F). split; auto. revert F. apply Forall2_iff. intros x y. rewrite A. reflexivity.
Qed.
Lemma absent_undefined : forall n k, (a_map n -> get n k = Ok Undefined <-> absent n k).
Proof. intros n k [l ->]. split; [apply get_absent|]. intro A. apply absent_get; auto; discriminate. Qed.

(** Steps of loaders. *)
Ltac steps H :=
  repeat match type of H with
  | obind _ _ = Ok _ => rewrite obind_ok in H; let x := fresh "x" in let E := fresh "E" in destruct H as (x & E & H)
  | throw_unless _ _ = Ok _ => rewrite throw_unless_ok in H; let E := fresh "C" in destruct H as [E H]
  end.
Lemma box_ok : forall n o, a_map n ->
  (exists bn, get n "BoundingBox" = Ok bn /\ (if is_defined bn then omap Some (as_box to_double bn) else Ok None) = Ok o) <->
  match o with None => absent n "BoundingBox" | Some (lo, hi) => exists box, entry n "BoundingBox" box /\ vec3_at to_double box "min" lo /\ vec3_at to_double box "max" hi end.
Proof.
  intros n o M. split.
  - intros (bn & E & H). destruct (is_defined bn) eqn:Df.
    + rewrite omap_ok in H. destruct H as ([lo hi] & F & <-). exists bn. rewrite as_box_ok in F. rewrite defined_iff in Df. split; auto. apply get_entry; auto.
    + injection H as <-. destruct bn; try discriminate. apply get_absent. exact E.
  - destruct o as [[lo hi]|].
    + intros (bn & E & H). exists bn. pose proof E as (N & _). split; [apply get_entry; auto|]. rewrite (proj2 (defined_iff bn) N), omap_ok. exists (lo, hi). rewrite as_box_ok. auto.
    + intro A. exists Undefined. split; auto. apply absent_undefined; auto.
Qed.
Lemma arrow_ok : forall n t o,
  match t with Arrow => obind (need n "ArrowOrientation") (fun an => omap Some (as_double an)) | Round => Ok None end = Ok o <->
  match t, o with Round, None => True | Arrow, Some a => number_at to_double n "ArrowOrientation" a | _, _ => False end.
Proof.
  intros n [] o.
  - split; [intros [= <-]; auto|]. destruct o; tauto.
  - rewrite obind_ok. split.
    + intros (an & E & H). rewrite need_ok in E. rewrite omap_ok in H. destruct H as (a & F & <-). rewrite as_double_ok in F. exists an. auto.
    + destruct o as [a|]; [|tauto]. intros (an & E & F). exists an. rewrite need_ok, omap_ok. split; auto. exists a. rewrite as_double_ok. auto.
Qed.
Lemma states_ok : forall n o, a_map n ->
  (exists sn st, get n "States" = Ok sn /\ (if is_defined sn then as_states null_text sn else Ok [On; Off]) = Ok st /\ o = match st with [] => [Off; On] | _ => st end) <->
  ((absent n "States" /\ o = [On; Off]) \/ (entry n "States" (Seq []) /\ o = [Off; On]) \/
   (exists l, entry n "States" (Seq l) /\ l <> [] /\ Forall2 (fun v s => text v (state_name s)) l o)).
Proof.
  intros n o M. split.
  - intros (sn & st & E & H & ->). destruct (is_defined sn) eqn:Df.
    + rewrite as_states_ok in H. destruct H as (l & -> & F). apply get_entry in E; [|discriminate]. inversion F; subst; [auto|].
      right. right. exists (x :: l0). split; [auto|split; [discriminate|auto]].
    + injection H as <-. left. destruct sn; try discriminate. apply get_absent in E. auto.
  - intros [[A ->]|[[E ->]|(l & E & N & F)]].
    + exists Undefined, [On; Off]. split; [apply absent_undefined; auto|]. auto.
    + exists (Seq []), []. split; [apply get_entry; auto; discriminate|]. auto.
    + exists (Seq l), o. split; [apply get_entry; auto; discriminate|]. split; [apply as_states_ok; eauto|]. inversion F; subst; congruence.
Qed.
Lemma ident_need : forall n k s, (exists m, need n k = Ok m /\ as_id m = Ok s) <-> ident_at null_text n k s.
Proof. intros n k s. unfold ident_at. split; intros (m & E & F); exists m; [rewrite need_ok in E|rewrite need_ok]; [rewrite as_id_ok in F|rewrite as_id_ok]; auto. Qed.
Lemma text_need : forall n k s, (exists m, need n k = Ok m /\ as_string m = Ok s) <-> text_at null_text n k s.
Proof. intros n k s. unfold text_at. split; intros (m & E & F); exists m; [rewrite need_ok in E|rewrite need_ok]; [rewrite as_string_ok in F|rewrite as_string_ok]; auto. Qed.

Notation denotes_bulb := (denotes_bulb to_double null_text).
Notation denotes_group := (denotes_group to_double null_text).
Notation denotes_light := (denotes_light to_double null_text).
Lemma BuildBulb_ok : forall n b, BuildBulb to_double null_text n = Ok b <-> denotes_bulb n b.
Proof.
  intros n b. split.
  - intro H. unfold BuildBulb in H. steps H. unfold Bulb in H. steps H. injection H as <-. rewrite is_map_iff in C.
    unfold Loaders_Spec.denotes_bulb. cbn [b_id b_pos b_rot b_color b_type b_arrow b_states b_box].
    split; [apply ident_need; eauto|]. split.
    { rewrite need_ok in E1, E2, E3. exists x1. rewrite <- as_vec3_ok, <- as_vec4_ok. split; [exact E1|]. split; eexists; split; eassumption. }
    split; [apply box_ok; eauto|].
    rewrite conv_ok, color_ok in E10. subst x9. rewrite conv_ok, type_ok in E13. subst x12.
    split; [apply text_need; eauto|]. split; [apply text_need; eauto|]. split; [apply arrow_ok in E14; exact E14|].
    apply states_ok; [exact C|]. exists x15, x16. auto.
  - intros (Hid & (pose & Ep & H3 & H4) & Hbox & Hc & Ht & Ha & Hs).
    assert (M : a_map n) by exact (entry_map _ _ _ Ep).
    assert (Mp : a_map pose) by (apply as_vec3_ok in H3; destruct H3 as (m & E & _); exact (entry_map _ _ _ E)).
    apply ident_need in Hid. destruct Hid as (idn & I1 & I2). apply as_vec3_ok in H3. destruct H3 as (pn & P1 & P2). apply as_vec4_ok in H4. destruct H4 as (rn & R1 & R2).
    apply box_ok in Hbox; [|exact M]. destruct Hbox as (bn & B1 & B2). apply text_need in Hc. destruct Hc as (cn & C1 & C2). apply text_need in Ht. destruct Ht as (tn & T1 & T2).
    pose proof Ha as Ha'. apply arrow_ok in Ha. apply states_ok in Hs; [|exact M]. destruct Hs as (sn & st & S1 & S2 & S3).
    rewrite <- need_ok in Ep, P1, R1. unfold BuildBulb. rewrite (proj2 (is_map_iff n) M). cbn [throw_unless].
    rewrite I1. cbn [obind]. rewrite I2. cbn [obind]. rewrite Ep. cbn [obind]. rewrite (proj2 (is_map_iff pose) Mp). cbn [throw_unless].
    rewrite P1. cbn [obind]. rewrite R1. cbn [obind]. rewrite P2. cbn [obind]. rewrite R2. cbn [obind]. rewrite B1. cbn [obind]. rewrite B2. cbn [obind].
    rewrite C1. cbn [obind]. rewrite C2. cbn [obind]. rewrite (proj2 (color_ok _ (b_color b)) eq_refl). cbn [conv obind].
    rewrite T1. cbn [obind]. rewrite T2. cbn [obind]. rewrite (proj2 (type_ok _ (b_type b)) eq_refl). cbn [conv obind].
    rewrite Ha. cbn [obind]. rewrite S1. cbn [obind]. rewrite S2. cbn [obind]. unfold Bulb. rewrite <- S3.
    destruct b as [i p r c t a s x]. cbn in *. destruct t, a; try tauto; reflexivity.
Qed.
Lemma unique_ids {A} : forall (f : A -> string) l, forallb (fun x => Nat.eqb (count_id f (f x) l) 1) l = true <-> NoDup (map f l).
Proof.
  intros f l. assert (G : forall l, (forall x, In x l -> count_id f (f x) l = 1) <-> NoDup (map f l)).
  { clear l. intro l. assert (Z : forall s l, count_id f s l = 0 <-> ~ In s (map f l)).
    { intros s m. unfold count_id. induction m as [|y m IH]; cbn; [tauto|]. destruct (String.eqb_spec s (f y)) as [->|N]; cbn.
      - split; [discriminate|]. intro H. exfalso. apply H. auto.
      - rewrite IH. intuition congruence. }
    induction l as [|y l IH]; cbn [map].
    - split; intro H; [constructor|]. intros x [].
    - rewrite NoDup_cons_iff. unfold count_id in *. cbn [filter]. split.
      + intro H. assert (N : ~ In (f y) (map f l)).
        { specialize (H y (or_introl eq_refl)). rewrite String.eqb_refl in H. cbn in H. apply Z. lia. }
        split; [exact N|]. apply IH. intros x I. specialize (H x (or_intror I)). destruct (String.eqb_spec (f x) (f y)) as [E|]; [|exact H].
        exfalso. apply N. rewrite <- E. apply in_map. exact I.
      + intros [N H] x [<-|I].
        * rewrite String.eqb_refl. cbn. f_equal. apply Z. exact N.
        * destruct (String.eqb_spec (f x) (f y)) as [E|]; [exfalso; apply N; rewrite <- E; apply in_map; exact I|]. apply IH; auto. }
  rewrite <- G, forallb_forall. split; intros H x I; specialize (H x I); [apply Nat.eqb_eq in H|apply Nat.eqb_eq]; exact H.
Qed.
Lemma nonempty_iff {A} : forall (l : list A), negb (Nat.eqb (length l) 0) = true <-> l <> [].
Proof. intros []; cbn; split; congruence. Qed.
Lemma BuildBulbGroup_ok : forall n g, BuildBulbGroup to_double null_text n = Ok g <-> denotes_group n g.
Proof.
  intros n g. split.
  - intro H. unfold BuildBulbGroup in H. steps H. unfold BulbGroup in H. steps H. injection H as <-.
    unfold Loaders_Spec.denotes_group. cbn [bg_id bg_pos bg_rot bg_bulbs]. rewrite need_ok in E1, E2, E3, E6.
    split; [apply ident_need; eauto|]. split; [exists x1; rewrite <- as_vec3_ok, <- as_vec4_ok; split; [exact E1|]; split; eexists; split; eassumption|].
    rewrite is_seq_iff in C1. split; [|split; [apply nonempty_iff; exact C2|apply unique_ids; exact C3]].
    exists (elements x6). rewrite <- C1. split; auto. rewrite each_ok_ok in E7. revert E7. apply Forall2_iff. intros u v. rewrite BuildBulb_ok. reflexivity.
  - intros (Hid & (pose & Ep & H3 & H4) & (l & El & F) & Ne & Nd).
    assert (M : a_map n) by exact (entry_map _ _ _ Ep).
    assert (Mp : a_map pose) by (apply as_vec3_ok in H3; destruct H3 as (m & E & _); exact (entry_map _ _ _ E)).
    apply ident_need in Hid. destruct Hid as (idn & I1 & I2). apply as_vec3_ok in H3. destruct H3 as (pn & P1 & P2). apply as_vec4_ok in H4. destruct H4 as (rn & R1 & R2).
    rewrite <- need_ok in Ep, P1, R1, El. unfold BuildBulbGroup. rewrite (proj2 (is_map_iff n) M). cbn [throw_unless].
    rewrite I1. cbn [obind]. rewrite I2. cbn [obind]. rewrite Ep. cbn [obind]. rewrite (proj2 (is_map_iff pose) Mp). cbn [throw_unless].
    rewrite P1. cbn [obind]. rewrite R1. cbn [obind]. rewrite P2. cbn [obind]. rewrite R2. cbn [obind]. rewrite El. cbn [obind is_seq throw_unless elements].
    rewrite (proj2 (each_ok_ok _ l (bg_bulbs g))) by (revert F; apply Forall2_iff; intros u v; rewrite BuildBulb_ok; reflexivity). cbn [obind].
    unfold BulbGroup. rewrite (proj2 (nonempty_iff _) Ne). cbn [throw_unless]. rewrite (proj2 (unique_ids _ _) Nd). destruct g. reflexivity.
Qed.
Lemma BuildTrafficLight_ok : forall n t, BuildTrafficLight to_double null_text n = Ok t <-> denotes_light n t.
Proof.
  intros n t. split.
  - intro H. unfold BuildTrafficLight in H. steps H. unfold TrafficLight in H. steps H. injection H as <-.
    unfold Loaders_Spec.denotes_light. cbn [tl_id tl_pos tl_rot tl_groups]. rewrite need_ok in E1, E2, E3, E6.
    split.
    { exists x. rewrite <- as_id_ok. split; [|exact E0]. apply get_entry; [|exact E]. intros ->. discriminate. }
    split; [exists x1; rewrite <- as_vec3_ok, <- as_vec4_ok; split; [exact E1|]; split; eexists; split; eassumption|].
    rewrite is_seq_iff in C1. split; [|apply unique_ids; exact C2].
    exists (elements x6). rewrite <- C1. split; auto. rewrite each_ok_ok in E7. revert E7. apply Forall2_iff. intros u v. rewrite BuildBulbGroup_ok. reflexivity.
  - intros (Hid & (pose & Ep & H3 & H4) & (l & El & F) & Nd).
    assert (M : a_map n) by exact (entry_map _ _ _ Ep).
    assert (Mp : a_map pose) by (apply as_vec3_ok in H3; destruct H3 as (m & E & _); exact (entry_map _ _ _ E)).
    destruct Hid as (idn & I1 & I2). rewrite <- as_id_ok in I2. apply get_entry in I1; [|exact (proj1 I1)].
    apply as_vec3_ok in H3. destruct H3 as (pn & P1 & P2). apply as_vec4_ok in H4. destruct H4 as (rn & R1 & R2).
    rewrite <- need_ok in Ep, P1, R1, El. unfold BuildTrafficLight. rewrite (proj2 (is_map_iff n) M). cbn [throw_unless].
    rewrite I1. cbn [obind]. rewrite I2. cbn [obind]. rewrite Ep. cbn [obind]. rewrite (proj2 (is_map_iff pose) Mp). cbn [throw_unless].
    rewrite P1. cbn [obind]. rewrite R1. cbn [obind]. rewrite P2. cbn [obind]. rewrite R2. cbn [obind]. rewrite El. cbn [obind is_seq throw_unless elements].
    rewrite (proj2 (each_ok_ok _ l (tl_groups t))) by (revert F; apply Forall2_iff; intros u v; rewrite BuildBulbGroup_ok; reflexivity). cbn [obind].
    unfold TrafficLight. rewrite (proj2 (unique_ids _ _) Nd). destruct t. reflexivity.
Qed.
Lemma NoDup_app_l {A} : forall (l m : list A), NoDup (l ++ m) -> NoDup l.
Proof. induction l as [|x l IH]; intros m H; [constructor|]. inversion H as [|y k N P]; subst. constructor; [intro I; apply N; apply in_or_app; auto|eauto]. Qed.
Lemma add_lights_ok : forall l book r, NoDup (map tl_id book) -> (add_lights (D := D) l book = Ok r <-> r = (book ++ l)%list /\ NoDup (map tl_id (book ++ l))).
Proof.
  induction l as [|t l IH]; intros book r Nd; cbn [add_lights].
  - rewrite app_nil_r. split; [intros [= <-]; auto|]. intros [-> _]. reflexivity.
  - rewrite throw_unless_ok, negb_true_iff.
    assert (X : existsb (fun u => tl_id t =? tl_id u) book = false <-> ~ In (tl_id t) (map tl_id book)).
    { rewrite <- not_true_iff_false, existsb_exists, in_map_iff. split; intros N (u & A & B); apply N; exists u.
      - split; [exact B|]. apply String.eqb_eq. congruence.
      - apply String.eqb_eq in B. auto. }
    rewrite X. assert (P : ~ In (tl_id t) (map tl_id book) <-> NoDup (map tl_id (book ++ [t]))).
    { rewrite map_app. cbn. split.
      - intro N. apply (NoDup_Add (a := tl_id t) (l := map tl_id book)); [|auto]. rewrite <- (app_nil_r (map tl_id book)) at 1. apply Add_app.
      - intros N I. apply NoDup_remove_2 in N. rewrite app_nil_r in N. auto. }
    rewrite P. split.
    + intros [N H]. apply IH in H; [|exact N]. rewrite <- app_assoc in H. exact H.
    + intros [-> N]. assert (N' : NoDup (map tl_id (book ++ [t]))).
      { replace (book ++ t :: l)%list with ((book ++ [t]) ++ l)%list in N by (rewrite <- app_assoc; reflexivity). rewrite map_app in N. exact (NoDup_app_l _ _ N). }
      split; [exact N'|]. apply IH; [exact N'|]. rewrite <- app_assoc. auto.
Qed.
Lemma load_book_ok : forall n book, LoadTrafficLightBook to_double null_text n = Ok book <-> denotes_book to_double null_text n book.
Proof.
  intros n book. unfold LoadTrafficLightBook, denotes_book. split.
  - intro H. steps H. apply add_lights_ok in H; [|constructor]. destruct H as [-> Nd]. rewrite app_nil_l in *. split; [|exact Nd].
    rewrite is_seq_iff in C0. rewrite need_ok in E. exists (elements x). rewrite <- C0. split; auto.
    rewrite each_ok_ok in E0. revert E0. apply Forall2_iff. intros u v. rewrite BuildTrafficLight_ok. reflexivity.
  - intros [(l & E & F) Nd]. rewrite (proj2 (is_map_iff n) (entry_map _ _ _ E)). rewrite <- need_ok in E. cbn [throw_unless]. rewrite E. cbn [obind is_seq throw_unless elements].
    rewrite (proj2 (each_ok_ok _ l book)) by (revert F; apply Forall2_iff; intros u v; rewrite BuildTrafficLight_ok; reflexivity). cbn [obind].
    apply add_lights_ok; [constructor|]. auto.
Qed.
(** Nothing aborts. *)
Ltac no_ub :=
  repeat first
  [ apply need_no_ub | apply get_no_ub | apply as_id_no_ub | apply as_string_no_ub | apply as_double_no_ub | apply as_vec3_no_ub | apply as_vec4_no_ub | apply conv_no_ub
  | discriminate | apply obind_no_ub; [|intros ? _] | apply throw_unless_no_ub; intros _ | apply omap_no_ub
  | match goal with |- (if ?c then _ else _) <> UB => destruct c end
  | match goal with |- match ?c with _ => _ end <> UB => destruct c end ].
Lemma BuildBulb_no_ub : forall n, BuildBulb to_double null_text n <> UB.
Proof.
  assert (A : forall n, as_box to_double n <> UB) by (intro n; unfold as_box; no_ub).
  assert (B : forall n, as_states null_text n <> UB) by (intro n; unfold as_states; no_ub; apply each_ok_no_ub; intros x _; no_ub).
  assert (C : forall i p r c t a s x, Bulb (D := D) i p r c t a s x <> UB) by (intros; unfold Bulb; no_ub).
  intro n. unfold BuildBulb. no_ub; auto. apply each_ok_no_ub; intros x _; no_ub.
Qed.
Lemma BuildBulbGroup_no_ub : forall n, BuildBulbGroup to_double null_text n <> UB.
Proof. intro n. unfold BuildBulbGroup. no_ub. all: try (apply each_ok_no_ub; intros z _; apply BuildBulb_no_ub). Qed.
Lemma BuildTrafficLight_no_ub : forall n, BuildTrafficLight to_double null_text n <> UB.
Proof. intro n. unfold BuildTrafficLight. no_ub. all: try (apply each_ok_no_ub; intros z _; apply BuildBulbGroup_no_ub). Qed.
Lemma load_book_no_ub : forall n, LoadTrafficLightBook to_double null_text n <> UB.
Proof.
  assert (G : forall l bk, add_lights (D := D) l bk <> UB) by (induction l as [|t l IH]; intros bk; cbn [add_lights]; no_ub; apply IH).
  intro n. unfold LoadTrafficLightBook. no_ub; [apply each_ok_no_ub; intros z _; apply BuildTrafficLight_no_ub|apply G].
Qed.
End Texts.
