(** Lemmas for paths and directories. *)
From Coq Require Import List Bool Arith Ascii Lia.
From Verif Require Import Base Files_Model Files_Spec.
Import ListNotations.

Lemma text_eqb_false : forall a b, a <> b -> text_eqb a b = false.
Proof. intros a b N. unfold text_eqb. destruct (list_eq_dec ascii_dec a b); congruence. Qed.
Lemma put_eq : forall fs l k, put fs l k l = Some k.
Proof. intros. unfold put. destruct (list_eq_dec (list_eq_dec ascii_dec) l l); congruence. Qed.
Lemma put_neq : forall fs l k m, m <> l -> put fs l k m = fs m.
Proof. intros. unfold put. destruct (list_eq_dec (list_eq_dec ascii_dec) m l); congruence. Qed.

Lemma split_no_slash : forall n, ~ In slash n -> split n = [n].
Proof.
  induction n as [|c n IH]; intro N; [reflexivity|]. cbn [split]. destruct (ascii_dec c slash) as [->|]; [exfalso; apply N; left; auto|].
  rewrite IH; [reflexivity|]. intro I. apply N. right. exact I.
Qed.
Lemma split_app : forall n s, ~ In slash n -> split (n ++ slash :: s) = n :: split s.
Proof.
  induction n as [|c n IH]; intros s N; cbn [split app].
  - destruct (ascii_dec slash slash); congruence.
  - destruct (ascii_dec c slash) as [->|]; [exfalso; apply N; left; auto|]. rewrite IH; [reflexivity|]. intro I. apply N. right. exact I.
Qed.
Lemma join_cons : forall n l, l <> [] -> join (n :: l) = n ++ slash :: join l.
Proof. intros n [|m l] N; [congruence|reflexivity]. Qed.
Lemma split_join : forall ns, Forall proper ns -> ns <> [] -> split (join ns) = ns.
Proof.
  induction ns as [|n ns IH]; intros F N; [congruence|]. inversion F as [|? ? P F']; subst. destruct ns as [|m ns].
  - apply split_no_slash. apply P.
  - rewrite join_cons by discriminate. rewrite split_app by apply P. rewrite IH; auto. discriminate.
Qed.
Lemma join_head : forall ns, Forall proper ns -> ns <> [] -> exists c s, join ns = c :: s /\ c <> slash.
Proof.
  intros [|n ns] F N; [congruence|]. inversion F as [|? ? (P1 & P2 & _) _]; subst. destruct n as [|c n]; [congruence|].
  assert (c <> slash) by (intros ->; apply P2; left; auto). destruct ns; cbn; eauto.
Qed.
Lemma written_start : forall a cwd ns, Forall proper ns -> ns <> [] -> start cwd (written a ns) = (base a cwd, ns) /\ written a ns <> [].
Proof.
  intros a cwd ns F N. destruct (join_head ns F N) as (c & s & E & Nc). destruct a; unfold written, base.
  - cbn [start]. destruct (ascii_dec slash slash); [|congruence]. rewrite split_join; auto. split; [auto|discriminate].
  - unfold start. rewrite E. destruct (ascii_dec c slash); [congruence|]. rewrite <- E. rewrite split_join; auto. split; [auto|congruence].
Qed.

Lemma tree_prefix : forall fs l m, tree fs -> fs (l ++ m) <> None -> m <> [] -> exists w, fs l = Some (Dir w).
Proof.
  intros fs l m [_ T] E N. induction m as [|x m IH] using rev_ind; [congruence|]. rewrite app_assoc in E. destruct (T _ _ E) as [w Ew].
  destruct m as [|y m]; [rewrite app_nil_r in Ew; eauto|]. apply IH; [congruence|discriminate].
Qed.
Lemma walk_ok : forall fs ns b, tree fs -> Forall proper ns -> fs (b ++ ns) <> None -> walk fs b ns = Some (b ++ ns).
Proof.
  intros fs ns. induction ns as [|n ns IH]; intros b T F E; [rewrite app_nil_r; reflexivity|]. inversion F as [|? ? (P1 & _ & P3 & P4) F']; subst. cbn [walk].
  destruct (tree_prefix fs b (n :: ns) T E ltac:(discriminate)) as [w Ew]. unfold is_dir. rewrite Ew. rewrite !text_eqb_false by assumption. cbn [orb].
  assert (E' : fs ((b ++ [n]) ++ ns) <> None) by (rewrite <- app_assoc; exact E).
  assert (X : fs (b ++ [n]) <> None) by (destruct ns as [|m ns]; [exact E|]; destruct (tree_prefix fs (b ++ [n]) (m :: ns) T E' ltac:(discriminate)) as [w' Ew']; congruence).
  destruct (fs (b ++ [n])); [|congruence]. rewrite IH by assumption. rewrite <- app_assoc. reflexivity.
Qed.
Lemma walk_none : forall fs ns b, tree fs -> Forall proper ns -> fs (b ++ ns) = None -> ns <> [] -> walk fs b ns = None.
Proof.
  intros fs ns. induction ns as [|n ns IH]; intros b T F E N; [congruence|]. inversion F as [|? ? (P1 & _ & P3 & P4) F']; subst. cbn [walk].
  destruct (is_dir fs b); [|reflexivity]. rewrite !text_eqb_false by assumption. cbn [orb]. destruct (fs (b ++ [n])) eqn:Ef; [|reflexivity].
  destruct ns as [|m ns]; [congruence|]. apply IH; auto; [rewrite <- app_assoc; exact E|discriminate].
Qed.
Lemma exists_written : forall fs cwd a ns, tree fs -> Forall proper ns -> ns <> [] -> exists_ fs cwd (written a ns) = match fs (base a cwd ++ ns) with Some _ => true | None => false end.
Proof.
  intros fs cwd a ns T F N. destruct (written_start a cwd ns F N) as [Es Nw]. unfold exists_, stat, resolve. destruct (written a ns) eqn:Ew; [congruence|]. rewrite Es.
  destruct (fs (base a cwd ++ ns)) eqn:E.
  - rewrite walk_ok by (auto; congruence). rewrite E. reflexivity.
  - rewrite walk_none by auto. reflexivity.
Qed.
Lemma drop_empty_proper : forall ns n, proper n -> drop_empty (n :: ns) = n :: ns.
Proof. intros ns [|c n] P; [destruct P; congruence|reflexivity]. Qed.
Lemma mkdir_written : forall fs cwd a ns n, tree fs -> Forall proper ns -> proper n -> fs (base a cwd ++ ns) <> None -> fs (base a cwd ++ ns ++ [n]) = None ->
  mkdir fs cwd (written a (ns ++ [n])) = if can_write fs (base a cwd ++ ns) then Some (put fs (base a cwd ++ ns ++ [n]) (Dir true)) else None.
Proof.
  intros fs cwd a ns n T F P E E'. assert (F' : Forall proper (ns ++ [n])) by (apply Forall_app; auto). assert (N : ns ++ [n] <> []) by (destruct ns; discriminate).
  destruct (written_start a cwd _ F' N) as [Es Nw]. unfold mkdir. destruct (written a (ns ++ [n])) eqn:Ew; [congruence|]. rewrite Es, rev_app_distr. cbn [rev app].
  rewrite drop_empty_proper by assumption. rewrite rev_involutive, walk_ok by assumption. destruct P as (_ & _ & P3 & P4). rewrite !text_eqb_false by assumption.
  rewrite <- app_assoc, E'. cbn [negb]. rewrite !andb_true_r. reflexivity.
Qed.
Lemma tree_put : forall fs l n, tree fs -> fs l = Some (Dir true) -> fs (l ++ [n]) = None -> tree (put fs (l ++ [n]) (Dir true)).
Proof.
  intros fs l n [[w R] T] E N. split.
  - exists w. rewrite put_neq; [exact R|]. destruct l; discriminate.
  - intros m x H. destruct (list_eq_dec (list_eq_dec ascii_dec) m (l ++ [n])) as [->|Nm].
    + exists true. apply put_eq.
    + rewrite put_neq by assumption. destruct (list_eq_dec (list_eq_dec ascii_dec) (m ++ [x]) (l ++ [n])) as [Eq|Nq].
      * apply app_inj_tail in Eq. destruct Eq as [-> ->]. eauto.
      * rewrite put_neq in H by assumption. eauto.
Qed.

(** ** The loop *)
Lemma find_slash_none : forall s pos, ~ In slash (skipn pos s) -> find_slash s pos = None.
Proof.
  induction s as [|c s IH]; intros pos N; [reflexivity|]. destruct pos as [|pos]; cbn [find_slash].
  - cbn in N. destruct (ascii_dec c slash) as [->|]; [exfalso; auto|]. rewrite (IH 0); [reflexivity|]. cbn. auto.
  - cbn [skipn] in N. rewrite (IH pos N). reflexivity.
Qed.
Lemma find_slash_some : forall s t pos, pos <= length s -> ~ In slash (skipn pos s) -> find_slash (s ++ slash :: t) pos = Some (length s).
Proof.
  induction s as [|c s IH]; intros t pos L N; cbn [app].
  - destruct pos; [|cbn in L; lia]. cbn. reflexivity.
  - destruct pos as [|pos]; cbn [find_slash].
    + cbn in N. destruct (ascii_dec c slash) as [->|]; [exfalso; auto|]. rewrite (IH t 0); [reflexivity|lia|cbn; auto].
    + cbn [skipn] in N. cbn in L. rewrite (IH t pos); [reflexivity|lia|exact N].
Qed.
Lemma join_app : forall l m, l <> [] -> m <> [] -> join (l ++ m) = join l ++ slash :: join m.
Proof.
  induction l as [|n l IH]; intros m N M; [congruence|]. destruct l as [|k l].
  - cbn [app]. rewrite join_cons by assumption. reflexivity.
  - change ((n :: k :: l) ++ m) with (n :: ((k :: l) ++ m)). rewrite join_cons by discriminate. rewrite IH by (auto; discriminate). rewrite (join_cons n (k :: l)) by discriminate. rewrite <- app_assoc. reflexivity.
Qed.
Lemma written_app : forall a l m, l <> [] -> m <> [] -> written a (l ++ m) = written a l ++ slash :: join m.
Proof. intros [] l m L M; unfold written; rewrite join_app by assumption; reflexivity. Qed.

Lemma skipn_incl {A} : forall n (l : list A) x, In x (skipn n l) -> In x l.
Proof. induction n; intros [|a l] x I; cbn in *; auto. Qed.

(** The position where the search for the slash after [l] starts. *)
Definition begun (a : bool) (l : list name) (pos : nat) : Prop := (l = [] /\ pos = 1) \/ (l <> [] /\ pos = length (written a l)).
Lemma next_slash : forall a l n pos, (a = true \/ 2 <= length (hd [] (l ++ [n]))) -> Forall proper (l ++ [n]) -> begun a l pos ->
  pos + 1 <= length (written a (l ++ [n])) /\ ~ In slash (skipn (pos + 1) (written a (l ++ [n]))).
Proof.
  intros a l n pos H F B. apply Forall_app in F. destruct F as [F Fn]. inversion Fn as [|? ? (P1 & P2 & _) _]; subst.
  destruct B as [[-> ->]|[Nl ->]].
  - cbn [app] in *. unfold written, join. destruct a.
    + cbn [length]. split; [destruct n; [congruence|cbn; lia]|]. intro I. cbn [Nat.add skipn] in I. apply P2. destruct n; [destruct I|right; exact (skipn_incl 0 _ _ I)].
    + destruct H as [H|H]; [discriminate|]. cbn in H. split; [lia|]. intro I. apply P2. exact (skipn_incl _ _ _ I).
  - rewrite written_app by (auto; discriminate). cbn [join]. rewrite app_length. cbn [length]. split; [lia|].
    rewrite skipn_app. replace (length (written a l) + 1 - length (written a l)) with 1 by lia. rewrite skipn_all2 by lia. cbn [app skipn]. exact P2.
Qed.

Section Run.
Variables (cwd : list name) (a : bool) (names : list name).
Let b := base a cwd.
Let temp := written a names.
Hypotheses (Hp : Forall proper names) (Hh : a = true \/ 2 <= length (hd [] names)).

(** The loop from the [k]-th prefix, followed by the last step. *)
Definition finish (r : bool * fsys) : outcome (bool * fsys) :=
  let '(ok, fs') := r in if ok then match mkdir fs' cwd temp with Some fs'' => Ok (true, fs'') | None => Ok (false, fs') end else Ok (false, fs').
Lemma run_ok : forall m k pos fs d fuel, length names = k + S m -> begun a (firstn k names) pos -> m < fuel -> tree fs ->
  k <= d -> d < length names -> fs (b ++ firstn d names) <> None -> (forall j, d < j -> j <= length names -> fs (b ++ firstn j names) = None) ->
  if can_write fs (b ++ firstn d names) then exists fs', obind (make_parents fuel cwd temp pos fs) finish = Ok (true, fs') /\ with_parents fs b names fs'
  else obind (make_parents fuel cwd temp pos fs) finish = Ok (false, fs).
Proof.
  assert (Hsplit : forall k, k < length names -> exists n, nth_error names k = Some n /\ firstn (S k) names = firstn k names ++ [n] /\ proper n /\ Forall proper (firstn k names)).
  { clear -Hp. intros k L. destruct (nth_error names k) as [n|] eqn:E; [|apply nth_error_None in E; lia]. exists n. split; auto.
    pose proof (nth_error_In _ _ E) as I. rewrite Forall_forall in Hp. split; [|split; [auto|]].
    - clear -E. revert k E. induction names as [|x l IH]; intros [|k] E; cbn in *; try discriminate; [injection E as ->; reflexivity|]. f_equal. apply IH. exact E.
    - apply Forall_forall. intros x J. apply Hp. rewrite <- (firstn_skipn k names). apply in_or_app. auto. }
  assert (Hhd : forall k, k < length names -> forall n, firstn (S k) names = firstn k names ++ [n] -> hd [] (firstn k names ++ [n]) = hd [] names).
  { intros k L n E. rewrite <- E. destruct names; [cbn in L; lia|reflexivity]. }
  (* One step *)
  assert (Hmk : forall k fs, k < length names -> tree fs -> fs (b ++ firstn k names) <> None -> fs (b ++ firstn (S k) names) = None ->
    mkdir fs cwd (written a (firstn (S k) names)) = if can_write fs (b ++ firstn k names) then Some (put fs (b ++ firstn (S k) names) (Dir true)) else None).
  { intros k fs L T E1 E2. destruct (Hsplit k L) as (n & _ & E & Pn & F). rewrite E. rewrite E in E2. apply mkdir_written; auto. }
  induction m as [|m IH]; intros k pos fs d fuel Hl B Hf T Hd Hd' Ed Hn; (destruct fuel as [|fuel]; [lia|]); cbn [make_parents].
  - destruct (Hsplit k ltac:(lia)) as (n & _ & E & Pn & F). assert (Ek : firstn (S k) names = names) by (apply firstn_all2; lia).
    destruct (next_slash a (firstn k names) n pos) as [_ Ns]; [destruct Hh as [Ha|Ha]; [auto|right; pose proof (Hhd k ltac:(lia) n E) as Xh; rewrite Xh; exact Ha]|rewrite <- E, Ek; exact Hp|exact B|].
    rewrite <- E, Ek in Ns. rewrite find_slash_none by exact Ns. cbn [obind finish]. assert (d = k) as -> by lia.
    assert (En : fs (b ++ firstn (S k) names) = None) by (apply Hn; lia).
    pose proof (Hmk k fs ltac:(lia) T Ed En) as Hm. rewrite Ek in *. fold temp in Hm. rewrite Hm. destruct (can_write fs (b ++ firstn k names)) eqn:W; [|reflexivity].
    eexists. split; [reflexivity|]. split.
    + intros j Lj Ej. destruct (le_lt_dec j k) as [L|L].
      * exfalso. destruct (Nat.eq_dec j k) as [->|Nj]; [congruence|]. assert (X : fs ((b ++ firstn j names) ++ skipn j (firstn k names)) <> None).
        { rewrite <- app_assoc. replace (firstn j names) with (firstn j (firstn k names)) by (rewrite firstn_firstn; f_equal; lia). rewrite firstn_skipn. exact Ed. }
        destruct (tree_prefix _ _ _ T X) as [w Ew]; [|congruence]. intro Es. apply (f_equal (@length _)) in Es. rewrite skipn_length, firstn_length in Es. cbn in Es. lia.
      * assert (j = S k) as -> by lia. rewrite Ek. apply put_eq.
    + intros l Hl'. apply put_neq. intros ->. destruct Hl' as [X|X]; [congruence|]. apply (X (S k)). rewrite Ek. reflexivity.
  - destruct (Hsplit k ltac:(lia)) as (n & _ & E & Pn & F).
    destruct (next_slash a (firstn k names) n pos) as [Hle Ns]; [destruct Hh as [Ha|Ha]; [auto|right; pose proof (Hhd k ltac:(lia) n E) as Xh; rewrite Xh; exact Ha]| |exact B|].
    { rewrite <- E. destruct (Hsplit (S k) ltac:(lia)) as (_ & _ & _ & _ & F'). exact F'. }
    rewrite <- E in Hle, Ns. assert (Nk : firstn (S k) names <> []) by (rewrite E; destruct (firstn k names); discriminate).
    assert (Nr : skipn (S k) names <> []) by (intro Es; apply (f_equal (@length _)) in Es; rewrite skipn_length in Es; cbn in Es; lia).
    assert (Et : temp = written a (firstn (S k) names) ++ slash :: join (skipn (S k) names)) by (unfold temp; rewrite <- written_app by assumption; rewrite firstn_skipn; reflexivity).
    assert (Efs : find_slash temp (pos + 1) = Some (length (written a (firstn (S k) names)))) by (rewrite Et; apply find_slash_some; assumption). rewrite Efs.
    assert (Ef : firstn (length (written a (firstn (S k) names))) temp = written a (firstn (S k) names)) by (rewrite Et, firstn_app, Nat.sub_diag, firstn_all; cbn; apply app_nil_r).
    rewrite Ef. rewrite exists_written by (auto; rewrite E; apply Forall_app; auto). fold b.
    assert (B' : begun a (firstn (S k) names) (length (written a (firstn (S k) names)))) by (right; auto).
    destruct (le_lt_dec (S k) d) as [L|L].
    + assert (X : fs (b ++ firstn (S k) names) <> None).
      { destruct (Nat.eq_dec (S k) d) as [->|Nd]; [exact Ed|]. assert (X : fs ((b ++ firstn (S k) names) ++ skipn (S k) (firstn d names)) <> None).
        { rewrite <- app_assoc. replace (firstn (S k) names) with (firstn (S k) (firstn d names)) by (rewrite firstn_firstn; f_equal; lia). rewrite firstn_skipn. exact Ed. }
        destruct (tree_prefix _ _ _ T X) as [w Ew]; [|congruence]. intro Es. apply (f_equal (@length _)) in Es. rewrite skipn_length, firstn_length in Es. cbn in Es. lia. }
      destruct (fs (b ++ firstn (S k) names)) eqn:Ex; [|congruence]. apply IH with (k := S k); auto; lia.
    + assert (d = k) as -> by lia. assert (En : fs (b ++ firstn (S k) names) = None) by (apply Hn; lia). rewrite En.
      rewrite (Hmk k fs ltac:(lia) T Ed En). destruct (can_write fs (b ++ firstn k names)) eqn:W; [|reflexivity].
      set (fs1 := put fs (b ++ firstn (S k) names) (Dir true)). 
      assert (Dk : fs (b ++ firstn k names) = Some (Dir true)) by (unfold can_write in W; destruct (fs (b ++ firstn k names)) as [[|w]|]; congruence).
      assert (T1 : tree fs1) by (unfold fs1; rewrite E in *; rewrite app_assoc in *; apply tree_put; auto).
      specialize (IH (S k) (length (written a (firstn (S k) names))) fs1 (S k) fuel ltac:(lia) B' ltac:(lia) T1 ltac:(lia) ltac:(lia)).
      assert (P1 : fs1 (b ++ firstn (S k) names) = Some (Dir true)) by apply put_eq.
      assert (Inj : forall j, j <= length names -> j <> S k -> b ++ firstn j names <> b ++ firstn (S k) names).
      { intros j Lj Nj Eq. apply app_inv_head in Eq. apply (f_equal (@length _)) in Eq. rewrite !firstn_length in Eq. lia. }
      assert (W1 : can_write fs1 (b ++ firstn (S k) names) = true) by (unfold can_write; rewrite P1; reflexivity). rewrite W1 in IH.
      destruct IH as (fs' & R & Wp); [congruence| |].
      { intros j L1 L2. unfold fs1. rewrite put_neq by (apply Inj; lia). apply Hn; lia. }
      exists fs'. split; [exact R|]. destruct Wp as [Wa Wb]. split.
      * intros j Lj Ej. destruct (Nat.eq_dec j (S k)) as [->|Nj].
        -- rewrite Wb by (left; congruence). exact P1.
        -- apply Wa; [exact Lj|]. unfold fs1. rewrite put_neq by (apply Inj; auto). exact Ej.
      * intros l Hl'. assert (Nl : l <> b ++ firstn (S k) names) by (intros ->; destruct Hl' as [X|X]; [congruence|]; exact (X (S k) eq_refl)).
        rewrite Wb; [unfold fs1; apply put_neq; exact Nl|]. destruct Hl' as [X|X]; [|right; exact X]. left. unfold fs1. rewrite put_neq by exact Nl. exact X.
Qed.
End Run.
