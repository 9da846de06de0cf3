(** Directory listings. *)
From Coq Require Import String Ascii List Bool Lia Arith.
From Verif Require Import Base Plugins_Model Plugins_Spec Plugins_Proofs.
Import ListNotations.
Local Open Scope string_scope.

(** The loop over the entries of one directory. *)
Definition entries_loop (dir : string) (suffix : option string) : list (string * node) -> list string -> outcome (list string) :=
  fix loop (l : list (string * node)) (filepaths : list string) : outcome (list string) :=
       match l with
       | [] => Ok filepaths
       | (name, Broken) :: _ => Throw
       | (name, File) :: l' =>
         if skipped suffix (entry_path dir name) then loop l' filepaths
         else loop l' (filepaths ++ [entry_path dir name])%list
       | (name, e) :: l' =>
         match GetAllFilePathsFromDirectory (entry_path dir name) e suffix with
         | Ok more_paths => loop l' (filepaths ++ more_paths)%list
         | Throw => Throw
         | UB => UB
         end
       end.
Lemma listing_dir : forall dir l suffix, GetAllFilePathsFromDirectory dir (Dir l) suffix = entries_loop dir suffix l [].
Proof. reflexivity. Qed.

Lemma node_nested : forall P : node -> Prop, P File -> P Locked -> P Broken ->
  (forall l, (forall name e, In (name, e) l -> P e) -> P (Dir l)) -> forall n, P n.
Proof.
  intros P HF HL HB HD. fix IH 1. intros [| | | l]; [exact HF | exact HL | exact HB |]. apply HD.
  induction l as [| [name e] l IHl]; intros name' e' H; [destruct H |]. destruct H as [H | H].
  - injection H as _ <-. apply IH.
  - exact (IHl _ _ H).
Qed.

(** What one entry contributes. *)
Definition contribution (dir : string) (suffix : option string) (ne : string * node) (q : list string) : Prop :=
  match snd ne with
  | File => q = if skipped suffix (entry_path dir (fst ne)) then [] else [entry_path dir (fst ne)]
  | Broken => False
  | e => GetAllFilePathsFromDirectory (entry_path dir (fst ne)) e suffix = Ok q
  end.
Lemma loop_ok : forall dir suffix l acc r, entries_loop dir suffix l acc = Ok r ->
  exists qs, Forall2 (contribution dir suffix) l qs /\ r = (acc ++ concat qs)%list.
Proof.
  induction l as [| [name e] l IH]; intros acc r H; cbn [entries_loop] in H.
  - injection H as <-. exists []. split; [constructor | symmetry; apply app_nil_r].
  - destruct e as [| | | l'].
    + destruct (skipped suffix (entry_path dir name)) eqn:S; apply IH in H as (qs & F & ->).
      * exists ([] :: qs). split; [constructor; [unfold contribution; cbn [fst snd]; rewrite S; reflexivity | exact F] | reflexivity].
      * exists ([entry_path dir name] :: qs). split; [constructor; [unfold contribution; cbn [fst snd]; rewrite S; reflexivity | exact F] |].
        cbn [concat]. rewrite <- app_assoc. reflexivity.
    + discriminate.
    + discriminate.
    + destruct (GetAllFilePathsFromDirectory (entry_path dir name) (Dir l') suffix) as [more | |] eqn:G; try discriminate.
      apply IH in H as (qs & F & ->). exists (more :: qs). split; [constructor; [exact G | exact F] |].
      cbn [concat]. rewrite <- app_assoc. reflexivity.
Qed.

Lemma leads_names : forall n, sensible n -> forall names, leads n names -> Forall (fun x => x <> "" /\ ~ contains "/" x) names.
Proof.
  induction n as [| | | l IH] using node_nested; intros S names H; inversion H as [| l' name e ns I L]; subst; [constructor |].
  inversion S as [| | | l' _ V]; subst. destruct (V _ _ I) as (Ne & N & Se). constructor; [auto |]. exact (IH _ _ I Se _ L).
Qed.
Lemma below_first : forall dir name p, path_below dir [name] p <-> p = entry_path dir name.
Proof.
  intros dir name p. destruct (with_slash_total dir) as [b Hb]. rewrite (entry_path_slash _ _ _ Hb). split.
  - intros (b' & Hb' & ->). rewrite (with_slash_unique _ _ _ Hb Hb'). reflexivity.
  - intros ->. exists b. split; [exact Hb | reflexivity].
Qed.
Lemma below_deeper : forall dir name names p, name <> "" -> ~ contains "/" name -> names <> [] ->
  (path_below dir (name :: names) p <-> path_below (entry_path dir name) names p).
Proof.
  intros dir name [| n2 names] p Ne N E; [contradiction |]. destruct (with_slash_total dir) as [b Hb].
  pose proof (entry_with_slash dir name Ne N) as He. rewrite (entry_path_slash _ _ _ Hb) in *. split.
  - intros (b' & Hb' & ->). rewrite <- (with_slash_unique _ _ _ Hb Hb'). exists ((b ++ name) ++ "/"). split; [exact He |].
    rewrite concat_cons, !sapp_assoc. reflexivity.
  - intros (b' & Hb' & ->). rewrite <- (with_slash_unique _ _ _ He Hb'). exists b. split; [exact Hb |].
    rewrite concat_cons, !sapp_assoc. reflexivity.
Qed.
Lemma below_inj : forall dir l l' p, l <> [] -> l' <> [] -> Forall (fun x => x <> "" /\ ~ contains "/" x) l -> Forall (fun x => x <> "" /\ ~ contains "/" x) l' ->
  path_below dir l p -> path_below dir l' p -> l = l'.
Proof.
  intros dir l l' p E E' F F' (b & Hb & ->) (b' & Hb' & H). rewrite <- (with_slash_unique _ _ _ Hb Hb') in H. apply sapp_inj in H.
  apply (concat_inj l l' E E'); [eapply Forall_impl; [| exact F]; intros x Hx; exact (proj2 Hx) | eapply Forall_impl; [| exact F']; intros x Hx; exact (proj2 Hx) | exact H].
Qed.

Lemma NoDup_app2 : forall (A : Type) (a b : list A), NoDup a -> NoDup b -> (forall x, In x a -> ~ In x b) -> NoDup (a ++ b).
Proof.
  induction a as [| x a IH]; intros b Ha Hb D; cbn [List.app]; [exact Hb |]. inversion Ha; subst. constructor.
  - rewrite in_app_iff. intros [H | H]; [contradiction |]. exact (D x (or_introl eq_refl) H).
  - apply IH; auto. intros y Hy. apply D. right. exact Hy.
Qed.

Lemma listing_exact : forall n, sensible n -> forall dir suffix ps, GetAllFilePathsFromDirectory dir n suffix = Ok ps ->
  (forall p, In p ps <-> exists names, names <> [] /\ leads n names /\ path_below dir names p /\ skipped suffix p = false) /\ NoDup ps.
Proof.
  induction n as [| | | l IH] using node_nested; intros S dir suffix ps H; try discriminate.
  rewrite listing_dir in H. apply loop_ok in H as (qs & F & ->). cbn [List.app].
  inversion S as [| | | l' D V]; subst. clear S.
  (* each part lists the files behind its entry *)
  assert (C : forall name e q, In (name, e) l -> contribution dir suffix (name, e) q ->
    (forall p, In p q <-> exists names, leads e names /\ path_below dir (name :: names) p /\ skipped suffix p = false) /\ NoDup q).
  { intros name e q I K. destruct (V _ _ I) as (Ne & N & Se). destruct e as [| | | l2]; unfold contribution in K; cbn [fst snd] in K.
    - subst q. split.
      + intros p. split.
        * intros Hp. exists []. split; [constructor |]. rewrite below_first.
          destruct (skipped suffix (entry_path dir name)) eqn:Sk; [destruct Hp |]. destruct Hp as [<- | []]. auto.
        * intros (names & L & B & Sk). inversion L; subst. apply below_first in B as ->. rewrite Sk. left. reflexivity.
      + destruct (skipped suffix (entry_path dir name)); repeat constructor; intros [].
    - discriminate.
    - destruct K.
    - destruct (IH _ _ I Se _ _ _ K) as [Q ND]. split; [| exact ND]. intros p. rewrite Q. split.
      + intros (names & E & L & B & Sk). exists names. split; [exact L |]. split; [| exact Sk]. apply below_deeper; assumption.
      + intros (names & L & B & Sk). exists names. assert (E : names <> []) by (inversion L; discriminate).
        split; [exact E |]. split; [exact L |]. split; [| exact Sk]. apply below_deeper in B; assumption. }
  assert (VN : forall name e names, In (name, e) l -> leads e names -> Forall (fun x => x <> "" /\ ~ contains "/" x) (name :: names)).
  { intros name e names I L. destruct (V _ _ I) as (Ne & N & Se). constructor; [auto | exact (leads_names _ Se _ L)]. }
  assert (G : forall sub qs, Forall2 (contribution dir suffix) sub qs -> incl sub l -> NoDup (map fst sub) ->
    (forall p, In p (concat qs) <-> exists name e names, In (name, e) sub /\ leads e names /\ path_below dir (name :: names) p /\ skipped suffix p = false) /\ NoDup (concat qs)).
  { clear F qs. induction 1 as [| [name e] q sub qs K F2 IHF]; intros I ND; cbn [concat map fst] in *.
    - split; [| constructor]. intros p. split; [intros [] | intros (? & ? & ? & [] & _)].
    - inversion ND as [| ? ? Nn ND']; subst. destruct (IHF (fun x Hx => I x (or_intror Hx)) ND') as [Q Qn].
      destruct (C _ _ _ (I _ (or_introl eq_refl)) K) as [Q1 Q1n]. split.
      + intros p. rewrite in_app_iff, Q, Q1. split.
        * intros [(names & L) | (name' & e' & names & I' & L)]; [exists name, e, names | exists name', e', names]; cbn [In]; tauto.
        * intros (name' & e' & names & [E | I'] & L); [injection E as <- <-; left; eauto | right; exists name', e', names; tauto].
      + apply NoDup_app2; [exact Q1n | exact Qn |]. intros p H1 H2. apply Q1 in H1 as (ns & L & B & _).
        apply Q in H2 as (name' & e' & ns' & I' & L' & B' & _).
        assert (E : name :: ns = name' :: ns').
        { apply (below_inj dir _ _ p); try discriminate; try assumption; eapply VN; eauto; apply I; cbn [In]; tauto. }
        injection E as <- _. apply Nn. apply (in_map fst) in I'. exact I'. }
  destruct (G l qs F (incl_refl _) D) as [Q Qn]. split; [| exact Qn]. intros p. rewrite Q. split.
  - intros (name & e & names & I & L & B & Sk). exists (name :: names). split; [discriminate |]. split; [econstructor; eauto | auto].
  - intros (names & E & L & B & Sk). inversion L as [| l2 name e ns I L2]; subst. exists name, e, ns. auto.
Qed.

Lemma loop_throws : forall dir suffix l acc,
  (forall name e, In (name, e) l -> match GetAllFilePathsFromDirectory (entry_path dir name) e suffix with
     Throw => e = File \/ unreadable e | Ok _ => ~ unreadable e | UB => False end) ->
  match entries_loop dir suffix l acc with
  | Throw => exists name e, In (name, e) l /\ unreadable e
  | Ok _ => forall name e, In (name, e) l -> ~ unreadable e
  | UB => False
  end.
Proof.
  induction l as [| [name e] l IH]; intros acc H; cbn [entries_loop]; [intros ? ? [] |].
  assert (IH' : forall acc, match entries_loop dir suffix l acc with
    | Throw => exists name e, In (name, e) l /\ unreadable e | Ok _ => forall name e, In (name, e) l -> ~ unreadable e | UB => False end).
  { intros acc'. apply IH. intros n' e' I. apply H. right. exact I. }
  assert (R : forall acc, ~ unreadable e -> match entries_loop dir suffix l acc with
    | Throw => exists name0 e0, In (name0, e0) ((name, e) :: l) /\ unreadable e0
    | Ok _ => forall name0 e0, In (name0, e0) ((name, e) :: l) -> ~ unreadable e0 | UB => False end).
  { intros acc' N. specialize (IH' acc'). destruct (entries_loop dir suffix l acc'); [| | exact IH'].
    - intros n' e' [I | I]; [injection I as <- <-; exact N | eauto].
    - destruct IH' as (n' & e' & I & U). exists n', e'. split; [right; exact I | exact U]. }
  pose proof (H name e (or_introl eq_refl)) as He. destruct e as [| | | l'].
  - assert (N : ~ unreadable File) by (intros U; inversion U). destruct (skipped suffix (entry_path dir name)); apply R; exact N.
  - exists name, Locked. split; [left; reflexivity | constructor].
  - exists name, Broken. split; [left; reflexivity | constructor].
  - destruct (GetAllFilePathsFromDirectory (entry_path dir name) (Dir l') suffix).
    + apply R. exact He.
    + exists name, (Dir l'). split; [left; reflexivity |]. destruct He as [E | U]; [discriminate | exact U].
    + exact He.
Qed.
Lemma listing_outcome : forall n dir suffix, match GetAllFilePathsFromDirectory dir n suffix with
  Throw => n = File \/ unreadable n | Ok _ => ~ unreadable n | UB => False end.
Proof.
  induction n as [| | | l IH] using node_nested; intros dir suffix; [left; reflexivity | right; constructor | right; constructor |].
  rewrite listing_dir. pose proof (loop_throws dir suffix l [] (fun name e I => IH name e I _ _)) as H.
  destruct (entries_loop dir suffix l []); [| | exact H].
  - intros U. inversion U; subst. eapply H; eauto.
  - right. destruct H as (name & e & I & U). econstructor; eauto.
Qed.
