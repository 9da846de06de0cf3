(** C87 and C90: what Initialize accepts and chooses, and how segments of a dense output join. *)
From Coq Require Import Reals List Bool Lra Lia.
From Verif Require Import Integ_Model Integ_Spec Integ_Proofs.
Import ListNotations.
Local Open Scope R_scope.

(** Spec: two given numbers are in order; an absent number is in order with every number. *)
Definition ordered (a b : option R) : Prop := forall x y, a = Some x -> b = Some y -> x <= y.

Lemma optlt_spec : forall a b, optlt b a = false <-> ordered a b.
Proof.
  intros [a |] [b |]; unfold optlt, ordered; split; try reflexivity; try (intros _ x y; congruence).
  - unfold ltb. destruct (Rlt_dec b a); [discriminate |]. intros _ x y Ex Ey. injection Ex as <-. injection Ey as <-. lra.
  - intros H. specialize (H a b eq_refl eq_refl). unfold ltb. destruct (Rlt_dec b a); [lra | reflexivity].
Qed.

(** Initialize succeeds exactly for settings in order with an initial or a maximum step size; anything
    else throws and changes nothing. *)
Theorem initialize_accepts : forall s,
  (ordered (Some (req_min (sets s))) (max_step (sets s)) /\ ordered (req_initial (sets s)) (max_step (sets s)) /\
   ordered (Some (req_min (sets s))) (req_initial (sets s)) /\ (req_initial (sets s) <> None \/ max_step (sets s) <> None) ->
   exists s', initialize s = (Ret tt, s')) /\
  (~ (ordered (Some (req_min (sets s))) (max_step (sets s)) /\ ordered (req_initial (sets s)) (max_step (sets s)) /\
   ordered (Some (req_min (sets s))) (req_initial (sets s)) /\ (req_initial (sets s) <> None \/ max_step (sets s) <> None)) ->
   initialize s = (Exc, s)).
Proof.
  intros s. rewrite <- !optlt_spec. unfold initialize, init_settings.
  destruct (optlt (max_step (sets s)) (Some (req_min (sets s)))); [split; [intros [H _]; discriminate | reflexivity] |].
  destruct (optlt (max_step (sets s)) (req_initial (sets s))); [split; [intros (_ & H & _); discriminate | reflexivity] |].
  destruct (optlt (req_initial (sets s)) (Some (req_min (sets s)))); [split; [intros (_ & _ & H & _); discriminate | reflexivity] |].
  destruct (req_initial (sets s)); [split; [eauto | intros H; exfalso; apply H; repeat split; left; discriminate] |].
  destruct (max_step (sets s)); [split; [eauto | intros H; exfalso; apply H; repeat split; right; discriminate] |].
  split; [intros (_ & _ & _ & [H | H]); contradiction | reflexivity].
Qed.
Print Assumptions initialize_accepts.

(** An initialized integrator aims at the requested initial step, or else at a tenth of the maximum
    step, never above a sensible maximum; the accuracy it works with is the target, at most 1/10, or
    1/1000; everything the caller set is kept. *)
Theorem initialize_chooses : forall s s', initialize s = (Ret tt, s') ->
  (exists h, req_initial (sets s') = Some h /\ (req_initial (sets s) = Some h \/
     req_initial (sets s) = None /\ exists m, max_step (sets s) = Some m /\ h = m / 10) /\
     forall m, max_step (sets s) = Some m -> 0 <= m -> h <= m) /\
  (exists a, accuracy (sets s') = Some a /\
     match target (sets s) with Some b => a = Rmin b (1 / 10) | None => a = 1 / 1000 end) /\
  initialized s' = true /\ max_step (sets s') = max_step (sets s) /\ req_min (sets s') = req_min (sets s) /\
  target (sets s') = target (sets s) /\ throws (sets s') = throws (sets s) /\
  time s' = time s /\ xc s' = xc s /\ param s' = param s /\ ideal s' = ideal s /\ dense s' = dense s.
Proof.
  intros s s' H. unfold initialize in H. destruct (init_settings (sets s)) as [c |] eqn:E; [| discriminate].
  injection H as <-. cbn [sets initialized time xc param ideal dense]. unfold init_settings in E.
  destruct (optlt (max_step (sets s)) (Some (req_min (sets s)))); [discriminate |].
  destruct (optlt (max_step (sets s)) (req_initial (sets s))) eqn:O; [discriminate |].
  destruct (optlt (req_initial (sets s)) (Some (req_min (sets s)))); [discriminate |].
  apply optlt_spec in O.
  assert (A : forall b, (if ltb (1 / 10) b then 1 / 10 else b) = Rmin b (1 / 10)).
  { intros b. unfold ltb. destruct (Rlt_dec (1 / 10) b); [rewrite Rmin_right by lra | rewrite Rmin_left by lra]; reflexivity. }
  destruct (req_initial (sets s)) as [h |] eqn:I; [| destruct (max_step (sets s)) as [m |] eqn:M; [| discriminate]]; injection E as <-;
    cbn [max_step req_min req_initial target accuracy throws]; rewrite ?M, ?I; (split; [eexists; split; [reflexivity |] | split; [eexists; split; [reflexivity |] | repeat split; reflexivity || assumption]]).
  1: { split; [left; reflexivity |]. intros m Hm _. exact (O h m eq_refl Hm). }
  2: { split; [right; split; [reflexivity |]; exists m; split; [reflexivity | lra] |]. intros m' Hm P. injection Hm as <-. lra. }
  all: destruct (target (sets s)); [apply A | reflexivity].
Qed.
Print Assumptions initialize_chooses.

Definition idle (c : settings) : istate := IState 0 (Some [1]) [] None false None c.
Example initialize_example : exists s', initialize (idle (Settings (Some 2) (1 / 100) None (Some 1) None true)) = (Ret tt, s') /\
  req_initial (sets s') = Some (2 / 10) /\ accuracy (sets s') = Some (1 / 10).
Proof.
  pose (s := idle (Settings (Some 2) (1 / 100) None (Some 1) None true)).
  destruct (proj1 (initialize_accepts s)) as [s' Hs'].
  { subst s. cbn [idle sets max_step req_min req_initial]. repeat split; [intros x y Ex Ey; injection Ex as <-; injection Ey as <-; lra | intros x y; discriminate | intros x y; discriminate | right; discriminate]. }
  exists s'. split; [exact Hs' |]. destruct (initialize_chooses _ _ Hs') as ((h & Eh & [D | (_ & m & Em & Hm)] & _) & (a & Ea & Ha) & _).
  - subst s. discriminate D.
  - rewrite Eh, Ea. subst s. cbn [idle sets target max_step] in *. injection Em as <-. subst h a. rewrite Rmin_right by lra. split; reflexivity.
Qed.

(** Finding: the initial step Initialize chooses may be below the requested minimum step, and then the
    same integrator, initialized again, throws. *)
Theorem initialize_again_refuted : exists s s' h, initialize s = (Ret tt, s') /\ req_initial (sets s') = Some h /\
  h < req_min (sets s') /\ initialize s' = (Exc, s').
Proof.
  pose (s := idle (Settings (Some 1) (1 / 2) None None None true)).
  destruct (proj1 (initialize_accepts s)) as [s' Hs'].
  { subst s. cbn [idle sets max_step req_min req_initial]. repeat split; [intros x y Ex Ey; injection Ex as <-; injection Ey as <-; lra | intros x y; discriminate | intros x y; discriminate | right; discriminate]. }
  exists s, s'. destruct (initialize_chooses _ _ Hs') as ((h & Eh & [D | (_ & m & Em & Hm)] & _) & _ & _ & _ & Er & _); [subst s; discriminate D |].
  exists h. subst s. cbn [idle sets max_step req_min] in *. injection Em as <-.
  split; [exact Hs' |]. split; [exact Eh |]. split; [lra |].
  apply (proj2 (initialize_accepts s')). intros (_ & _ & O & _). rewrite Er, Eh in O. specialize (O _ _ eq_refl eq_refl). lra.
Qed.
Print Assumptions initialize_again_refuted.

(** Spec: each segment starts where its predecessor ends. *)
Inductive joined : list seg -> Prop :=
| joined_nil : joined []
| joined_one : forall g, joined [g]
| joined_more : forall g h l, g_t1 g = g_t0 h -> joined (h :: l) -> joined (g :: h :: l).

Lemma joined_snoc : forall l g h, joined (l ++ [g]) -> g_t1 g = g_t0 h -> joined ((l ++ [g]) ++ [h]).
Proof.
  induction l as [| a l IH]; intros g h J E; cbn [app] in *.
  - apply joined_more; [exact E | constructor].
  - destruct l as [| b l]; cbn [app] in *; inversion J as [| | ? ? ? E1 J1]; subst.
    + apply joined_more; [assumption |]. apply (IH g h); assumption.
    + apply joined_more; [assumption |]. apply (IH g h); assumption.
Qed.
Lemma list_eq_dec_nil : forall d : list seg, {d = []} + {exists l e, d = l ++ [e]}.
Proof. intros [| a d]; [left; reflexivity | right]. destruct (@exists_last _ (a :: d)) as (l & e & H); [discriminate | eauto]. Qed.
Lemma last_some : forall (l : list seg) g, last (map Some (l ++ [g])) None = Some g.
Proof. intros l g. rewrite map_app. cbn [map]. apply last_last. Qed.

(** Appending a segment keeps a dense output joined, adds one segment with the states of the new one, of
    its length up to the tolerance; it is refused exactly when it does not start within the tolerance of
    the end. *)
Theorem segment_appended : forall d g, joined d ->
  match append_seg d g with
  | Some d' => joined d' /\ exists h, d' = d ++ [h] /\ g_x0 h = g_x0 g /\ g_x1 h = g_x1 g /\ g_d0 h = g_d0 g /\ g_d1 h = g_d1 g /\
      g_t1 h - g_t0 h = g_t1 g - g_t0 g /\
      forall l e, d = l ++ [e] -> g_t0 h = g_t1 e /\ Rabs (g_t0 g - g_t1 e) < Rmax (Rabs (g_t1 e)) 1 * / 2 ^ 52
  | None => exists l e, d = l ++ [e] /\ Rmax (Rabs (g_t1 e)) 1 * / 2 ^ 52 <= Rabs (g_t0 g - g_t1 e)
  end.
Proof.
  intros d g J. unfold append_seg. destruct (list_eq_dec_nil d) as [-> | (l & e & ->)].
  - cbn [map last]. split; [constructor |]. exists g. repeat split; try reflexivity; destruct l; discriminate.
  - rewrite last_some. unfold ltb, eps_time. destruct (Rlt_dec _ _) as [L | L].
    + split; [apply joined_snoc; [exact J | cbn [g_t0]; lra] |]. eexists. split; [reflexivity |]. cbn [g_t0 g_t1 g_x0 g_x1 g_d0 g_d1].
      repeat split; try lra; apply app_inj_tail in H as [_ <-]; [lra | exact L].
    + exists l, e. split; [reflexivity | lra].
Qed.
Print Assumptions segment_appended.
Example segment_appended_example : joined [Seg 0 1 None None None None] /\
  append_seg [Seg 0 1 None None None None] (Seg 2 3 None None None None) = None.
Proof.
  split; [constructor |]. pose proof (segment_appended [Seg 0 1 None None None None] (Seg 2 3 None None None None) (joined_one _)) as H.
  destruct (append_seg _ _) as [d' |]; [| reflexivity]. destruct H as (_ & h & _ & _ & _ & _ & _ & _ & H).
  destruct (H [] (Seg 0 1 None None None None) eq_refl) as [_ L]. cbn [g_t0 g_t1] in L.
  replace (2 - 1) with 1 in L by ring. rewrite !Rabs_R1, Rmax_left in L by lra.
  exfalso. apply (Rlt_irrefl 1). apply (Rlt_le_trans _ _ _ L). rewrite Rmult_1_l.
  apply (Rle_trans _ (/ 1)); [apply Rinv_le_contravar; [lra |]; apply pow_R1_Rle; lra | lra].
Qed.
