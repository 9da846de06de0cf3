(** Lemmas about drawings and the logger. *)
From Coq Require Import String Ascii List Bool Arith Lia.
From Verif Require Import Base Texts_Model Texts_Spec Texts_Proofs.
Import ListNotations.
Local Open Scope string_scope.

(** ** Drawings *)
Lemma put_edge_lines l : forall os, fold_left put_edge l os = os ++ block (map (fun e => drawn e false) l).
Proof.
  induction l as [|e l IH]; intros os; cbn [fold_left map]; [symmetry; apply app_nil_s|]. rewrite IH, block_cons. unfold put_edge, drawn. rewrite ?app_assoc_s. cbn [append]. rewrite ?app_assoc_s. reflexivity.
Qed.
Lemma drawing_block s ls : s ++ drawing ls = ((s ++ "graph {" ++ nl) ++ block ls) ++ "}" ++ nl.
Proof. unfold drawing. fold (block ls). rewrite !app_assoc_s. reflexivity. Qed.
Lemma put_route_lines segs l : forall os, fold_left (put_route_edge segs) l os = os ++ block (map (fun e => drawn e (existsb (Nat.eqb (e_segment e)) segs)) l).
Proof.
  induction l as [|e l IH]; intros os; cbn [fold_left map]; [symmetry; apply app_nil_s|]. rewrite IH, block_cons. unfold put_route_edge, drawn. destruct (existsb (Nat.eqb (e_segment e)) segs); rewrite ?app_assoc_s; cbn [append]; rewrite ?app_assoc_s; reflexivity.
Qed.
Lemma route_segments_ok edges phases : (forall p, In p phases -> p <> []) -> forall acc,
  match route_segments edges phases acc with
  | Ok segs => (forall s, In s segs <-> In s acc \/ exists p r, In p phases /\ p = s :: r) /\ (forall s r, In (s :: r) phases -> exists e, In e edges /\ e_segment e = s)
  | Throw => exists s r, In (s :: r) phases /\ forall e, In e edges -> e_segment e <> s
  | UB => False
  end.
Proof.
  induction phases as [|p phases IH]; intros N acc; cbn [route_segments].
  - split; [|intros s r []]. intros s. split; [auto|]. intros [H|(p & r & [] & _)]; auto.
  - destruct p as [|s r]; [exfalso; apply (N []); [left; reflexivity|reflexivity]|]. destruct (find (fun e => Nat.eqb (e_segment e) s) edges) as [e|] eqn:F.
    + specialize (IH (fun q Hq => N q (or_intror Hq)) (s :: acc)). apply find_some in F. destruct F as [F1 F2]. apply Nat.eqb_eq in F2. destruct (route_segments edges phases (s :: acc)) as [segs| |]; [|destruct IH as (s' & r' & H & K); exists s', r'; split; [right; auto|auto]|auto].
      destruct IH as [A B]. split.
      * intros x. rewrite A. cbn [In]. split.
        -- intros [[<-|H]|(p & q & H & E)]; [right; exists (s :: r), r; auto|auto|right; exists p, q; auto].
        -- intros [H|(p & q & [<-|H] & E)]; [auto|injection E as -> ->; auto|right; exists p, q; auto].
      * intros x q [E|H]; [injection E as <- <-; exists e; auto|apply (B x q H)].
    + exists s, r. split; [left; reflexivity|]. intros e He E. pose proof (find_none _ _ F e He) as X. cbn in X. rewrite E, Nat.eqb_refl in X. discriminate.
Qed.
Lemma drawn_inj e r e' r' : readable e -> readable e' -> drawn e r = drawn e' r' -> told e r = told e' r'.
Proof.
  intros (A & B & C & _) (A' & B' & C' & _) E. unfold drawn in E. change (" -- " ++ ?x) with (String " " ("-- " ++ x)) in E. apply split_inj in E; auto. destruct E as [Ea E]. injection E as E.
  change (e_b e ++ String " " ("[ label = """ ++ e_label e ++ String """" ((if r then " color = ""red""" else "") ++ " ];")) = e_b e' ++ String " " ("[ label = """ ++ e_label e' ++ String """" ((if r' then " color = ""red""" else "") ++ " ];"))) in E.
  apply split_inj in E; auto. destruct E as [Eb E]. injection E as E. apply split_inj in E; auto. destruct E as [El E]. unfold told. rewrite Ea, Eb, El. destruct r, r'; try discriminate; reflexivity.
Qed.
Lemma drawn_one e r : readable e -> one_line (drawn e r).
Proof.
  intros (_ & _ & _ & A & B & C). unfold one_line, drawn in *. rewrite !has_app, A, B, C. destruct r; reflexivity.
Qed.
Lemma drawings_determine (l l' : list (edge * bool)) : (forall er, In er l -> readable (fst er)) -> (forall er, In er l' -> readable (fst er)) ->
  drawing (map (fun er => drawn (fst er) (snd er)) l) = drawing (map (fun er => drawn (fst er) (snd er)) l') -> map (fun er => told (fst er) (snd er)) l = map (fun er => told (fst er) (snd er)) l'.
Proof.
  intros R R' E. set (f := fun er : edge * bool => drawn (fst er) (snd er)) in *. assert (X : forall ls, drawing ls = ("graph {" ++ nl) ++ block (ls ++ ["}"])%list) by (intros ls; rewrite block_app; unfold drawing; fold (block ls); rewrite !app_assoc_s; reflexivity).
  rewrite !X in E. apply app_inj_s in E. apply block_inj in E.
  - apply app_inj_tail in E. destruct E as [E _]. revert l' R' E. induction l as [|x l IH]; intros [|y l'] R' E; try discriminate; [reflexivity|]. cbn [map] in *. injection E as E1 E2. rewrite (drawn_inj (fst x) (snd x) (fst y) (snd y)); [|apply R; left; auto|apply R'; left; auto|exact E1]. f_equal. apply IH; auto; intros er H; [apply R|apply R']; right; auto.
  - apply Forall_app. split; [|repeat constructor]. apply Forall_forall. intros s Hs. apply in_map_iff in Hs. destruct Hs as (er & <- & He). apply drawn_one, R, He.
  - apply Forall_app. split; [|repeat constructor]. apply Forall_forall. intros s Hs. apply in_map_iff in Hs. destruct Hs as (er & <- & He). apply drawn_one, R', He.
Qed.

(** ** Logger *)
Lemma level_at_named s l : level_at kStringToLevel s = Ok l <-> named l s.
Proof.
  unfold kStringToLevel. cbn [level_at].
  destruct (String.eqb_spec "off" s) as [<-|]; [destruct l; cbn; split; congruence|]. destruct (String.eqb_spec "trace" s) as [<-|]; [destruct l; cbn; split; congruence|].
  destruct (String.eqb_spec "debug" s) as [<-|]; [destruct l; cbn; split; congruence|]. destruct (String.eqb_spec "info" s) as [<-|]; [destruct l; cbn; split; congruence|].
  destruct (String.eqb_spec "warn" s) as [<-|]; [destruct l; cbn; split; congruence|]. destruct (String.eqb_spec "error" s) as [<-|]; [destruct l; cbn; split; congruence|].
  destruct (String.eqb_spec "critical" s) as [<-|]; [destruct l; cbn; split; congruence|]. destruct (String.eqb_spec "unchanged" s) as [<-|]; [destruct l; cbn; split; congruence|].
  destruct l; cbn; split; congruence.
Qed.
Lemma level_at_no_ub t s : level_at t s <> UB.
Proof. induction t as [|[k l] t IH]; cbn; [discriminate|]. destruct (String.eqb k s); [discriminate|exact IH]. Qed.
Lemma named_inj l l' s : named l s -> named l' s -> l = l'.
Proof. intros A B. apply level_at_named in A. apply level_at_named in B. congruence. Qed.
Lemma sets_inj c l l' : sets_level c l -> sets_level c l' -> l = l'.
Proof. intros A B. inversion A; subst; inversion B; subst; auto. eapply named_inj; eauto. Qed.
Lemma snoc_inj {A} (a b : list A) x y : (a ++ [x])%list = (b ++ [y])%list -> a = b /\ x = y. Proof. apply app_inj_tail. Qed.
Lemma snoc_nil {A} (a : list A) x : (a ++ [x])%list <> []. Proof. destruct a; discriminate. Qed.
Ltac no_snoc := match goal with X : (_ ++ [_])%list = [] |- _ => exfalso; exact (snoc_nil _ _ X) | X : [] = (_ ++ [_])%list |- _ => exfalso; exact (snoc_nil _ _ (eq_sym X)) end.
Definition after_calls (h : list call) : logger := fold_left do_call h new_logger.
Lemma after_snoc h c : after_calls (h ++ [c]) = do_call (after_calls h) c.
Proof. unfold after_calls. rewrite fold_left_app. reflexivity. Qed.
Lemma level_or g c : (exists l, sets_level c l /\ level_ (do_call g c) = l) \/ ((forall l, ~ sets_level c l) /\ level_ (do_call g c) = level_ g).
Proof.
  destruct c as [l args|l|s|k]; cbn [do_call].
  - right. split; [intros l' H; inversion H|]. unfold log. destruct (Nat.leb _ _); [destruct (kLevelToMessage l)|]; reflexivity.
  - destruct l; [left; eexists; split; [apply by_level; discriminate|reflexivity]..|]. right. split; [intros l' H; inversion H; congruence|reflexivity].
  - unfold set_log_level. destruct (level_at kStringToLevel s) as [l| |] eqn:E; [|right; split; [intros l' H; inversion H; subst; apply level_at_named in H1; congruence|reflexivity]|exfalso; apply (level_at_no_ub _ _ E)].
    apply level_at_named in E. destruct l; [left; eexists; split; [eapply by_name; [exact E|discriminate]|reflexivity]..|]. right. split; [|reflexivity]. intros l' H; inversion H; subst. apply H2. eapply named_inj; eauto.
  - right. split; [intros l' H; inversion H|]. destruct k; reflexivity.
Qed.
Lemma threshold_after h l : threshold h l <-> level_ (after_calls h) = l.
Proof.
  revert l. induction h as [|c h IH] using rev_ind; intros l.
  - split; [intros H; inversion H; subst; try no_snoc; reflexivity|intros <-; constructor].
  - rewrite after_snoc. destruct (level_or (after_calls h) c) as [(l' & S & E)|(N & E)]; rewrite E; split.
    + intros H. inversion H as [|h0 c0 l0 S0 X|h0 c0 l0 T0 N0 X]; subst; [no_snoc|apply snoc_inj in X; destruct X as [-> ->]; eapply sets_inj; eauto|apply snoc_inj in X; destruct X as [-> ->]; exfalso; eapply N0; eauto].
    + intros <-. apply th_set, S.
    + intros H. inversion H as [|h0 c0 l0 S0 X|h0 c0 l0 T0 N0 X]; subst; [no_snoc|apply snoc_inj in X; destruct X as [-> ->]; exfalso; eapply N; eauto|apply snoc_inj in X; destruct X as [-> ->]; apply IH, T0].
    + intros <-. apply th_keep; [apply IH; reflexivity|exact N].
Qed.
Lemma sink_or g c : (exists k, c = SetSink (Some k) /\ sink_ (do_call g c) = k) \/ ((forall k, c <> SetSink (Some k)) /\ sink_ (do_call g c) = sink_ g).
Proof.
  destruct c as [l args|l|s|k]; cbn [do_call].
  - right. split; [discriminate|]. unfold log. destruct (Nat.leb _ _); [destruct (kLevelToMessage l)|]; reflexivity.
  - right. split; [discriminate|]. destruct l; reflexivity.
  - right. split; [discriminate|]. unfold set_log_level. destruct (level_at kStringToLevel s) as [l| |]; [destruct l|..]; reflexivity.
  - destruct k as [k|]; [left; exists k; auto|right; split; [discriminate|reflexivity]].
Qed.
Lemma sink_after h k : sink h k <-> sink_ (after_calls h) = k.
Proof.
  revert k. induction h as [|c h IH] using rev_ind; intros k.
  - split; [intros H; inversion H; subst; try no_snoc; reflexivity|intros <-; constructor].
  - rewrite after_snoc. destruct (sink_or (after_calls h) c) as [(k' & S & E)|(N & E)]; rewrite E; split.
    + intros H. inversion H as [|h0 k0 X|h0 c0 k0 T0 N0 X]; subst; [no_snoc|apply snoc_inj in X; destruct X as [-> X]; congruence|apply snoc_inj in X; destruct X as [-> ->]; exfalso; eapply N0; eauto].
    + intros <-. subst c. apply si_set.
    + intros H. inversion H as [|h0 k0 X|h0 c0 k0 T0 N0 X]; subst; [no_snoc|apply snoc_inj in X; destruct X as [-> X]; exfalso; eapply N; eauto|apply snoc_inj in X; destruct X as [-> ->]; apply IH, T0].
    + intros <-. apply si_keep; [apply IH; reflexivity|exact N].
Qed.
Lemma format_concat v : format v = String.concat "" v.
Proof.
  unfold format. assert (X : forall a, fold_left append v a = a ++ String.concat "" v).
  { induction v as [|x v IH]; intros a; cbn [fold_left]; [symmetry; apply app_nil_s|]. rewrite IH. destruct v as [|y v]; cbn [String.concat]; [rewrite !app_nil_s; reflexivity|]. rewrite app_assoc_s. reflexivity. }
  rewrite X. reflexivity.
Qed.
Lemma never_unchanged h : level_ (after_calls h) <> unchanged.
Proof.
  induction h as [|c h IH] using rev_ind; [discriminate|]. rewrite after_snoc. destruct (level_or (after_calls h) c) as [(l & S & ->)|(_ & ->)]; [|exact IH]. inversion S; auto.
Qed.
Lemma log_does h l args : severity l <> None -> let g := after_calls h in
  (passes (level_ g) l /\ log g l args = (Ok tt, mk_logger (level_ g) (sink_ g) (sent g ++ [(sink_ g, message l args)])%list)) \/ (~ passes (level_ g) l /\ log g l args = (Ok tt, g)).
Proof.
  intros S. cbv zeta. pose proof (never_unchanged h) as U. set (g := after_calls h) in *. unfold log, passes. rewrite format_concat. destruct (Nat.leb_spec (level_number (level_ g)) (level_number l)) as [L|L].
  - left. destruct (level_ g); destruct l; cbn in S, L; try congruence; try lia; (split; [cbn; lia|reflexivity]).
  - right. split; [|reflexivity]. destruct (level_ g); destruct l; cbn in S, L; try congruence; cbn; lia.
Qed.
Lemma other_sent g c : (forall l args, c <> Log l args) -> sent (do_call g c) = sent g.
Proof.
  destruct c as [l args|l|s|k]; intros N; cbn [do_call]; [exfalso; eapply N; reflexivity|destruct l; reflexivity| |destruct k; reflexivity].
  unfold set_log_level. destruct (level_at kStringToLevel s) as [l| |]; [destruct l|..]; reflexivity.
Qed.
Lemma delivered h d : Forall proper_call h -> (deliveries h d <-> sent (after_calls h) = d).
Proof.
  revert d. induction h as [|c h IH] using rev_ind; intros d P.
  - split; [intros H; inversion H; subst; try no_snoc; reflexivity|intros <-; constructor].
  - apply Forall_app in P. destruct P as [P Pc]. inversion Pc as [|? ? Pc1 _]; subst. specialize (fun d => IH d P). rewrite after_snoc.
    destruct c as [l args| | |]; [|split; [intros H; inversion H as [|h0 l0 a0 t k d0 D T K V X|h0 l0 a0 t d0 D T V X|h0 c0 d0 D V X]; [no_snoc|apply snoc_inj in X; destruct X; discriminate|apply snoc_inj in X; destruct X; discriminate|]; apply snoc_inj in X; destruct X as [-> ->]; rewrite other_sent by auto; apply IH, D | intros <-; rewrite other_sent by discriminate; apply de_other; [apply IH; reflexivity|discriminate]]..].
    cbn [do_call]. destruct (log_does h l args Pc1) as [[Q ->]|[Q ->]]; cbn [snd sent]; split.
    + intros H. inversion H as [X|h0 l0 a0 t k d0 D T K V X|h0 l0 a0 t d0 D T V X|h0 c0 d0 D V X]; [no_snoc| | |]; apply snoc_inj in X; destruct X as [-> X]; try (injection X as -> ->).
      * apply IH in D. apply sink_after in K. rewrite D, K. reflexivity.
      * apply threshold_after in T. rewrite T in Q. contradiction.
      * exfalso. subst c0. eapply V. reflexivity.
    + intros <-. eapply de_sent; [apply IH; reflexivity|apply threshold_after; reflexivity|apply sink_after; reflexivity|exact Q].
    + intros H. inversion H as [X|h0 l0 a0 t k d0 D T K V X|h0 l0 a0 t d0 D T V X|h0 c0 d0 D V X]; [no_snoc| | |]; apply snoc_inj in X; destruct X as [-> X]; try (injection X as -> ->).
      * apply threshold_after in T. rewrite T in Q. contradiction.
      * apply IH in D. exact D.
      * exfalso. subst c0. eapply V. reflexivity.
    + intros <-. eapply de_not; [apply IH; reflexivity|apply threshold_after; reflexivity|exact Q].
Qed.
