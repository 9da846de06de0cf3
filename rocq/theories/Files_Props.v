(** C55: creation of directories, paths. *)
From Coq Require Import List Bool Arith Ascii String Lia.
From Verif Require Import Base Files_Model Files_Spec Files_Proofs.
Import ListNotations.

(** Nothing of it is undefined, whatever the path and the file system. *)
Lemma find_slash_bounds : forall s p q, find_slash s p = Some q -> p <= q /\ q < List.length s.
Proof.
  induction s as [|c s IH]; intros p q H; [discriminate|]. cbn [List.length]. destruct p as [|p]; cbn [find_slash] in H.
  - destruct (ascii_dec c slash); [injection H as <-; lia|]. destruct (find_slash s 0) as [r|] eqn:E; [|discriminate]. injection H as <-. destruct (IH _ _ E). lia.
  - destruct (find_slash s p) as [r|] eqn:E; [|discriminate]. injection H as <-. destruct (IH _ _ E). lia.
Qed.
Theorem create_directories_defined : forall cwd s fs, exists ok fs', create_directory_recursive cwd s fs = Ok (ok, fs').
Proof.
  intros cwd s fs.
  assert (L : forall fuel pos fs, List.length s <= fuel + pos -> exists ok fs', make_parents (S fuel) cwd s pos fs = Ok (ok, fs')).
  { induction fuel as [|fuel IH]; intros pos fs0 Hf; cbn [make_parents]; destruct (find_slash s (pos + 1)) as [q|] eqn:E; eauto; apply find_slash_bounds in E; [lia|].
    assert (Hq : List.length s <= fuel + q) by lia. destruct (exists_ fs0 cwd (firstn q s)); [apply IH; exact Hq|]. destruct (mkdir fs0 cwd (firstn q s)); eauto. }
  unfold create_directory_recursive. destruct s as [|c s]; [eauto|]. destruct (L (List.length (c :: s)) 1 fs ltac:(lia)) as (ok & fs' & ->). cbn [obind]. destruct ok; [|eauto]. destruct (mkdir fs' cwd (c :: s)); eauto.
Qed.
Print Assumptions create_directories_defined.

Lemma create_existing : forall cwd a names fs, Forall proper names -> names <> [] -> (a = true \/ 2 <= List.length (hd [] names)) -> tree fs ->
  fs (base a cwd ++ names) <> None -> create_directory_recursive cwd (written a names) fs = Ok (false, fs).
Proof.
  intros cwd a names fs Hp Nn Hh T E.
  assert (Mk : mkdir fs cwd (written a names) = None).
  { destruct (written_start a cwd names Hp Nn) as [Es Nw]. unfold mkdir. destruct (written a names) as [|c0 w0] eqn:Ew; [congruence|]. rewrite Es.
    destruct (exists_last Nn) as (l & n & En). rewrite En in *. rewrite rev_app_distr. cbn [rev app]. apply Forall_app in Hp. destruct Hp as [F Fn]. inversion Fn as [|? ? Pn _]; subst.
    rewrite drop_empty_proper by assumption. rewrite rev_involutive, walk_ok; auto.
    - rewrite <- app_assoc. destruct (fs (base a cwd ++ l ++ [n])); [|congruence]. rewrite andb_false_r. reflexivity.
    - rewrite app_assoc in E. destruct (tree_prefix fs (base a cwd ++ l) [n] T E ltac:(discriminate)) as [w ->]. discriminate. }
  assert (Ex : forall k, 0 < k -> k <= List.length names -> exists_ fs cwd (written a (firstn k names)) = true).
  { intros k L1 L2. assert (F : Forall proper (firstn k names)) by (apply Forall_forall; intros x I; rewrite Forall_forall in Hp; apply Hp; rewrite <- (firstn_skipn k names); apply in_or_app; auto).
    rewrite exists_written; auto; [|destruct names; [congruence|]; destruct k; [lia|discriminate]].
    assert (X : fs (base a cwd ++ firstn k names) <> None).
    { destruct (Nat.eq_dec k (List.length names)) as [->|Nk]; [rewrite firstn_all; exact E|]. assert (X : fs ((base a cwd ++ firstn k names) ++ skipn k names) <> None) by (rewrite <- app_assoc, firstn_skipn; exact E).
      destruct (tree_prefix _ _ _ T X) as [w ->]; [|discriminate]. intro Es. apply (f_equal (@List.length _)) in Es. rewrite skipn_length in Es. cbn in Es. lia. }
    destruct (fs (base a cwd ++ firstn k names)); congruence. }
  assert (L : forall m k pos fuel, List.length names = k + S m -> begun a (firstn k names) pos -> m < fuel -> make_parents fuel cwd (written a names) pos fs = Ok (true, fs)).
  { induction m as [|m IH]; intros k pos fuel Hl B Hf; (destruct fuel as [|fuel]; [lia|]); cbn [make_parents];
      (assert (Sp : exists n, firstn (S k) names = firstn k names ++ [n]) by
        (destruct (nth_error names k) as [n|] eqn:En; [|apply nth_error_None in En; lia]; exists n; clear -En; revert k En; induction names as [|x l IH]; intros [|k] En; cbn in *; try discriminate; [injection En as ->; reflexivity|]; f_equal; apply IH; exact En));
      destruct Sp as [n Sp];
      (assert (Ns : pos + 1 <= List.length (written a (firstn (S k) names)) /\ ~ In slash (skipn (pos + 1) (written a (firstn (S k) names)))) by
        (rewrite Sp; apply next_slash; [destruct Hh as [Ha|Ha]; [auto|right; rewrite <- Sp; destruct names; [cbn in Hl; lia|exact Ha]]|rewrite <- Sp; apply Forall_forall; intros x I; rewrite Forall_forall in Hp; apply Hp; rewrite <- (firstn_skipn (S k) names); apply in_or_app; auto|exact B]));
      destruct Ns as [Hle Ns].
    - rewrite firstn_all2 in Ns by lia. rewrite find_slash_none by exact Ns. reflexivity.
    - assert (Nk : firstn (S k) names <> []) by (rewrite Sp; destruct (firstn k names); discriminate).
      assert (Nr : skipn (S k) names <> []) by (intro Es; apply (f_equal (@List.length _)) in Es; rewrite skipn_length in Es; cbn in Es; lia).
      assert (Et : written a names = written a (firstn (S k) names) ++ slash :: join (skipn (S k) names)) by (rewrite <- written_app by assumption; rewrite firstn_skipn; reflexivity).
      assert (Efs : find_slash (written a names) (pos + 1) = Some (List.length (written a (firstn (S k) names)))) by (rewrite Et; apply find_slash_some; assumption). rewrite Efs.
      assert (Ef : firstn (List.length (written a (firstn (S k) names))) (written a names) = written a (firstn (S k) names)) by (rewrite Et, firstn_app, Nat.sub_diag, firstn_all; cbn; apply app_nil_r).
      rewrite Ef. rewrite Ex by lia. apply IH with (k := S k); [lia|right; auto|lia]. }
  unfold create_directory_recursive. destruct (written a names) as [|c0 w0] eqn:Ew; [destruct (written_start a cwd names Hp Nn); congruence|]. rewrite <- Ew in *.
  assert (Hlen : List.length names <= List.length (written a names)).
  { clear -Hp Nn. assert (J : List.length names <= List.length (join names)).
    { clear Nn. induction names as [|n l IH]; [cbn; lia|]. inversion Hp as [|? ? (P & _) Hp']; subst. specialize (IH Hp'). destruct n as [|c n]; [congruence|]. destruct l as [|m l]; [cbn; lia|]. rewrite join_cons by discriminate. rewrite app_length. cbn [List.length] in *. lia. }
    destruct a; unfold written; cbn [List.length]; lia. }
  rewrite (L (List.length names - 1) 0 1) by (try (left; auto); destruct names; try congruence; cbn [List.length] in *; lia). cbn [obind]. rewrite Mk. reflexivity.
Qed.

(** The claim: like mkdir -p, for paths written with proper names.  Missing: a relative path
    whose first name has a single letter; and an existing directory is reported as a failure
    (see the refutations below). *)
Theorem create_directories_partial : forall cwd a names fs,
  Forall proper names -> names <> [] -> (a = true \/ 2 <= List.length (hd [] names)) -> tree fs -> (exists w, fs (base a cwd) = Some (Dir w)) ->
  exists ok fs', create_directory_recursive cwd (written a names) fs = Ok (ok, fs') /\
    (ok = true -> creatable fs (base a cwd) names /\ with_parents fs (base a cwd) names fs') /\
    (ok = false -> ~ creatable fs (base a cwd) names /\ fs' = fs) /\
    ((forall w, fs (base a cwd ++ names) <> Some (Dir w)) -> mkdir_p fs (base a cwd) names ok fs').
Proof.
  intros cwd a names fs Hp Nn Hh T [w0 Hb]. destruct (fs (base a cwd ++ names)) as [kd|] eqn:Et.
  - assert (Nc : ~ creatable fs (base a cwd) names) by (intros (k & L & _ & H); specialize (H (List.length names) L (le_n _)); rewrite firstn_all in H; congruence).
    exists false, fs. split; [apply create_existing; auto; congruence|]. split; [discriminate|]. split; [auto|]. intro H. cbn. split; [|exact Nc]. intros [w E]. exact (H w ltac:(congruence)).
  - set (b := base a cwd) in *.
    (* the deepest existing prefix *)
    assert (Dp : exists d, d < List.length names /\ fs (b ++ firstn d names) <> None /\ forall j, d < j -> j <= List.length names -> fs (b ++ firstn j names) = None).
    { assert (X : forall m, m <= List.length names -> (forall j, m < j -> j <= List.length names -> fs (b ++ firstn j names) = None) ->
               exists d, d <= m /\ fs (b ++ firstn d names) <> None /\ forall j, d < j -> j <= List.length names -> fs (b ++ firstn j names) = None).
      { induction m as [|m IH]; intros L H.
        - exists 0. split; auto. cbn. rewrite app_nil_r. split; [congruence|exact H].
        - destruct (fs (b ++ firstn (S m) names)) eqn:E; [exists (S m); split; auto; split; [congruence|exact H]|].
          destruct (IH ltac:(lia)) as (d & Ld & R); [|exists d; split; [lia|exact R]]. intros j L1 L2. destruct (Nat.eq_dec j (S m)) as [->|]; [exact E|apply H; lia]. }
      destruct (X (List.length names) (le_n _)) as (d & Ld & Ed & Hd); [intros; lia|]. exists d. split; [|auto]. destruct (Nat.eq_dec d (List.length names)) as [->|]; [|lia]. rewrite firstn_all in Ed. congruence. }
    destruct Dp as (d & Ld & Ed & Hd).
    assert (Hlen : List.length names <= List.length (written a names)).
    { clear -Hp Nn. assert (J : List.length names <= List.length (join names)).
      { clear Nn. induction names as [|n l IH]; [cbn; lia|]. inversion Hp as [|? ? (P & _) Hp']; subst. specialize (IH Hp'). destruct n as [|c n]; [congruence|]. destruct l as [|m l]; [cbn; lia|]. rewrite join_cons by discriminate. rewrite app_length. cbn [List.length] in *. lia. }
      destruct a; unfold written; cbn [List.length]; lia. }
    assert (Run := run_ok cwd a names Hp Hh (List.length names - 1) 0 1 fs d (S (List.length (written a names)))
      ltac:(destruct names; [congruence|cbn [List.length]; lia]) ltac:(left; auto) ltac:(lia) T ltac:(lia) Ld Ed Hd). fold b in Run.
    assert (Def : create_directory_recursive cwd (written a names) fs = obind (make_parents (S (List.length (written a names))) cwd (written a names) 1 fs) (finish cwd a names)).
    { destruct (written_start a cwd names Hp Nn) as [_ Nw]. unfold create_directory_recursive, finish. clear -Nw. destruct (written a names); [congruence|reflexivity]. }
    assert (Cr : creatable fs b names <-> can_write fs (b ++ firstn d names) = true).
    { unfold can_write. split.
      - intros (k & Lk & Ek & Hk). assert (k = d) as ->; [|rewrite Ek; reflexivity]. destruct (lt_eq_lt_dec k d) as [[L|L]|L]; auto; exfalso; [apply Ed; apply Hk; lia|]. assert (fs (b ++ firstn k names) = None) by (apply Hd; lia). congruence.
      - intro W. exists d. split; auto. split; [|exact Hd]. destruct (fs (b ++ firstn d names)) as [[|w]|]; congruence. }
    destruct (can_write fs (b ++ firstn d names)).
    + destruct Run as (fs' & R & Wp). exists true, fs'. rewrite Def. split; [exact R|]. assert (C : creatable fs b names) by (apply Cr; reflexivity). split; [auto|]. split; [discriminate|]. intros _. cbn. auto.
    + exists false, fs. rewrite Def. split; [exact Run|]. assert (C : ~ creatable fs b names) by (rewrite Cr; discriminate). split; [discriminate|]. split; [auto|]. intros _. cbn. split; [|exact C]. intros [w E]. congruence.
Qed.
Print Assumptions create_directories_partial.

(** A file system: the root with a writable directory "home", working directory "/home". *)
Definition t (s : string) : text := list_ascii_of_string s.
Definition demo_fs : fsys := put (put (fun _ => None) [] (Dir false)) [t "home"] (Dir true).
Definition demo_cwd : list name := [t "home"].
Lemma demo_tree : tree demo_fs.
Proof.
  split; [exists false; reflexivity|]. intros l n H. unfold demo_fs, put in *. destruct (list_eq_dec _ (l ++ [n]) [t "home"]) as [E|_].
  - assert (l = []) as -> by (destruct l as [|x [|y l]]; [auto|discriminate|discriminate]). exists false. reflexivity.
  - destruct (list_eq_dec _ (l ++ [n]) []) as [E|_]; [destruct l; discriminate|congruence].
Qed.
Example demo_created : exists fs', create_directory_recursive demo_cwd (t "/home/a/b") demo_fs = Ok (true, fs') /\ fs' [t "home"; t "a"] = Some (Dir true) /\ fs' [t "home"; t "a"; t "b"] = Some (Dir true).
Proof. eexists. split; [reflexivity|]. split; reflexivity. Qed.
Example demo_relative : exists fs', create_directory_recursive demo_cwd (t "out/b") demo_fs = Ok (true, fs') /\ fs' [t "home"; t "out"; t "b"] = Some (Dir true).
Proof. eexists. split; reflexivity. Qed.
Example demo_hypotheses : Forall proper [t "out"; t "b"] /\ 2 <= List.length (hd [] [t "out"; t "b"]) /\ written false [t "out"; t "b"] = t "out/b" /\ creatable demo_fs demo_cwd [t "out"; t "b"].
Proof.
  split; [repeat constructor; cbn; intuition discriminate|]. split; [cbn; lia|]. split; [reflexivity|]. exists 0. split; [cbn; lia|]. split; [reflexivity|]. intros [|[|[|j]]] L1 L2; cbn in L2; try lia; reflexivity.
Qed.

(** The claim is false in general.  A relative path whose first name has one letter: the slash
    after it is not looked at, so the first directory is not made. *)
Theorem one_letter_directory_refuted : exists cwd names fs fs', Forall proper names /\ tree fs /\ creatable fs (base false cwd) names /\
  create_directory_recursive cwd (written false names) fs = Ok (false, fs').
Proof.
  exists demo_cwd, [t "a"; t "b"], demo_fs, demo_fs. split; [repeat constructor; cbn; intuition discriminate|]. split; [exact demo_tree|]. split; [|reflexivity].
  exists 0. split; [cbn; lia|]. split; [reflexivity|]. intros [|[|[|j]]] L1 L2; cbn in L2; try lia; reflexivity.
Qed.
Print Assumptions one_letter_directory_refuted.

(** A directory that is there already is reported as a failure, unlike with mkdir -p. *)
Theorem existing_directory_refuted : exists cwd names fs w, Forall proper names /\ tree fs /\ fs names = Some (Dir w) /\
  create_directory_recursive cwd (written true names) fs = Ok (false, fs) /\ ~ mkdir_p fs [] names false fs.
Proof.
  exists demo_cwd, [t "home"], demo_fs, true. split; [repeat constructor; cbn; intuition discriminate|]. split; [exact demo_tree|]. split; [reflexivity|]. split; [reflexivity|].
  intros [H _]. apply H. exists true. reflexivity.
Qed.
Print Assumptions existing_directory_refuted.

(** With a slash at the end, the directory is made and a failure is reported. *)
Theorem trailing_slash_refuted : exists cwd s fs fs', tree fs /\ is_directory fs cwd s = false /\ create_directory_recursive cwd s fs = Ok (false, fs') /\ is_directory fs' cwd s = true.
Proof. exists demo_cwd, (t "out/"), demo_fs, (put demo_fs [t "home"; t "out"] (Dir true)). split; [exact demo_tree|]. split; [reflexivity|]. split; reflexivity. Qed.
Print Assumptions trailing_slash_refuted.

(** ** Paths *)
Lemma normalize_proper : forall s n, proper n -> normalize (s ++ n) = Ok (s ++ n).
Proof.
  intros s n (N & Ns & _). destruct (exists_last N) as (m & c & ->). unfold normalize. destruct (s ++ m ++ [c]) eqn:E; [destruct s; [destruct m|]; discriminate|]. rewrite <- E. rewrite app_assoc, last_last.
  destruct (ascii_dec c slash) as [->|]; [exfalso; apply Ns; apply in_or_app; right; left; auto|]. reflexivity.
Qed.
Lemma join_last : forall ns, Forall proper ns -> ns <> [] -> exists s n, join ns = s ++ n /\ proper n.
Proof.
  intros ns F N. destruct (exists_last N) as (l & n & ->). apply Forall_app in F. destruct F as [F Fn]. inversion Fn; subst. destruct l as [|x l]; [exists [], n; auto|].
  exists (join (x :: l) ++ [slash]), n. split; auto. rewrite join_app by discriminate. cbn [join]. rewrite <- app_assoc. reflexivity.
Qed.
(** Appending a relative path, with or without a slash at its end, extends the names;
    appending an absolute one replaces the path. *)
Theorem append_extends : forall a ns ms, Forall proper ns -> ns <> [] -> Forall proper ms -> ms <> [] ->
  append (written a ns) (written false ms) = Ok (written a (ns ++ ms)) /\
  append (written a ns) (written false ms ++ [slash]) = Ok (written a (ns ++ ms)) /\
  append (written a ns) (written true ms) = Ok (written true ms).
Proof.
  intros a ns ms Fn Nn Fm Nm. destruct (join_last ms Fm Nm) as (s & n & E & P). destruct (join_head ms Fm Nm) as (c & r & Eh & Nc).
  assert (W : written a ns ++ slash :: join ms = written a (ns ++ ms)) by (symmetry; apply written_app; assumption).
  split; [|split].
  - unfold append. cbn [written]. rewrite Eh. destruct (ascii_dec c slash); [congruence|]. rewrite <- Eh, W. rewrite <- W, E.
    change (written a ns ++ slash :: s ++ n) with (written a ns ++ (slash :: s) ++ n). rewrite app_assoc. apply normalize_proper. exact P.
  - unfold append. cbn [written]. rewrite Eh. cbn [app]. destruct (ascii_dec c slash); [congruence|].
    replace (written a ns ++ slash :: c :: r ++ [slash]) with (written a (ns ++ ms) ++ [slash]) by (rewrite <- W, Eh, <- app_assoc; reflexivity).
    unfold normalize. destruct (written a (ns ++ ms) ++ [slash]) eqn:Ew; [destruct (written a (ns ++ ms)); discriminate|]. rewrite <- Ew. rewrite last_last. destruct (ascii_dec slash slash); [|congruence].
    destruct (written_start a [] (ns ++ ms)) as [_ Nw]; [apply Forall_app; auto|destruct ns; [congruence|discriminate]|]. rewrite app_length. cbn [List.length]. replace (1 <? List.length (written a (ns ++ ms)) + 1) with true by (symmetry; apply Nat.ltb_lt; destruct (written a (ns ++ ms)); [congruence|cbn; lia]).
    cbn [andb]. rewrite Nat.add_sub, firstn_app, Nat.sub_diag, firstn_all. cbn. rewrite app_nil_r. reflexivity.
  - unfold append. cbn [written]. destruct (ascii_dec slash slash); [|congruence]. rewrite E. change (slash :: s ++ n) with ((slash :: s) ++ n). apply normalize_proper. exact P.
Qed.
Print Assumptions append_extends.
Example demo_append : append (t "/home") (t "a/b/") = Ok (t "/home/a/b") /\ append (t "x") (t "/y") = Ok (t "/y").
Proof. split; reflexivity. Qed.

(** Appending to the empty path gives an absolute path; setting an empty path is undefined. *)
Theorem append_to_empty_refuted : append [] (t "a") = Ok (t "/a") /\ set_path [] = UB.
Proof. split; reflexivity. Qed.
Print Assumptions append_to_empty_refuted.
