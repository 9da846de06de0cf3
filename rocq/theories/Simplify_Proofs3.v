(** Proofs for C49: contours. *)
From Coq Require Import List QArith Bool Arith Lia Permutation.
From Verif Require Import Base Maps Mesh_Model Mesh_Spec Mesh_Proofs Simplify_Model Simplify_Spec Simplify_Proofs Simplify_Proofs2.
Import ListNotations.
Local Open Scope nat_scope.

Lemma count_in s x : count s x = true <-> In x s.
Proof. unfold count. rewrite existsb_exists. split; [intros (y & I & E); apply Nat.eqb_eq in E; subst; auto|intro I; exists x; split; auto; apply Nat.eqb_refl]. Qed.
Lemma count_notin s x : count s x = false <-> ~ In x s.
Proof. rewrite <- count_in. destruct (count s x); split; congruence. Qed.

Lemma rows_length (l : adjacency) : length (flat_map (fun x => map (pair (fst x)) (seq 0 (length (snd x)))) l) = fold_right (fun x k => length (snd x) + k) 0 l.
Proof. induction l as [|x l IH]; cbn [flat_map fold_right]; auto. rewrite app_length, map_length, seq_length, IH. auto. Qed.
Lemma mfind_in_adj (l : adjacency) f es : mfind Nat.eqb f l = Some es -> In (f, es) l.
Proof. induction l as [|[x v] l IH]; cbn; [discriminate|]. destruct (Nat.eqb_spec f x) as [->|]; [intro E; inversion E; auto|right; auto]. Qed.

Section Contour.
Variable fs : list index_face.
Variable W : well_oriented fs.
Variable adj : adjacency.
Variable A : adj_ok fs adj.
Variable s : list nat.

Definition region (h : nat * nat) : Prop := half fs h /\ In (fst h) s.
Definition rot (h : nat * nat) : nat * nat := (fst h, (snd h + 1) mod length (nth (fst h) fs [])).
Definition cross (h : nat * nat) : nat * nat := match twin fs h with Some k => if count s (fst k) then k else h | None => h end.
Definition is_outer (h : nat * nat) : bool := negb (inside s (twin fs h)).
Definition nxt (h : nat * nat) : nat * nat := rot (cross h).

Lemma region_row h : region h -> exists es, mfind Nat.eqb (fst h) adj = Some es /\ length es = length (nth (fst h) fs []) /\ nth_error es (snd h) = Some (twin fs h).
Proof.
  intros [H I]. destruct (a_all fs adj A h H) as [es F]. exists es. destruct (a_some fs adj A _ _ F) as [_ [L R]]. split; auto. split; auto.
  rewrite R; [rewrite <- surjective_pairing; auto|]. rewrite L. apply H.
Qed.
Lemma rot_region h : region h -> region (rot h).
Proof. intros [[H1 H2] I]. split; [split; cbn; auto; apply next_lt; auto|auto]. Qed.
Lemma cross_region h : region h -> region (cross h).
Proof.
  intros [H I]. unfold cross. destruct (twin fs h) as [k|] eqn:T; [|split; auto]. destruct (count s (fst k)) eqn:C; [|split; auto].
  split; [apply (twin_invol fs h k W H T)|apply count_in; auto].
Qed.
Lemma nxt_region h : region h -> region (nxt h).
Proof. intro R. apply rot_region, cross_region. auto. Qed.
Lemma contour_step_ok h : region h -> contour_step s adj h = Ok (if is_outer h then Some h else None, nxt h).
Proof.
  intro R. destruct (region_row h R) as (es & F & L & N). unfold contour_step. rewrite F, N. unfold is_outer, nxt, cross, inside, rot.
  destruct (twin fs h) as [[g k]|] eqn:T; cbn [negb fst snd]; [|rewrite L; auto].
  destruct (count s g) eqn:C; cbn [negb]; [|rewrite L; auto]. destruct R as [H I]. destruct (twin_invol fs h (g, k) W H T) as [K _].
  destruct (a_all fs adj A (g, k) K) as [es' F']. cbn [fst] in F'. rewrite F'. destruct (a_some fs adj A _ _ F') as [_ [L' _]]. destruct K as [K1 K2]. cbn [fst snd] in *.
  rewrite L'. destruct (Nat.eqb_spec (length (nth g fs [])) 0); [lia|auto].
Qed.
Lemma rot_inj h k : half fs h -> half fs k -> rot h = rot k -> h = k.
Proof.
  destruct h as [f i], k as [g j]. unfold rot, half. cbn [fst snd]. intros [_ H] [_ K] E. inversion E as [[Ef Em]]. subst g. f_equal.
  rewrite !next_mod in Em by auto. destruct (Nat.eqb_spec (S i) (length (nth f fs []))), (Nat.eqb_spec (S j) (length (nth f fs []))); lia.
Qed.
Lemma cross_inj h k : region h -> region k -> cross h = cross k -> h = k.
Proof.
  intros [H Ih] [K Ik]. unfold cross. destruct (twin fs h) as [h'|] eqn:Th; destruct (twin fs k) as [k'|] eqn:Tk.
  - destruct (count s (fst h')) eqn:Ch; destruct (count s (fst k')) eqn:Ck; intro E; subst; auto.
    + destruct (twin_invol fs h k' W H Th) as [_ P]. destruct (twin_invol fs k k' W K Tk) as [_ Q]. congruence.
    + destruct (twin_invol fs h k W H Th) as [_ P]. rewrite Tk in P. inversion P; subst. apply count_in in Ih. congruence.
    + destruct (twin_invol fs k k' W K Tk) as [_ P]. rewrite Th in P. inversion P; subst. apply count_in in Ik. congruence.
  - destruct (count s (fst h')) eqn:Ch; intro E; subst; auto. destruct (twin_invol fs h k W H Th) as [_ P]. congruence.
  - destruct (count s (fst k')) eqn:Ck; intro E; subst; auto. destruct (twin_invol fs k k' W K Tk) as [_ P]. congruence.
  - auto.
Qed.
Lemma nxt_inj h k : region h -> region k -> nxt h = nxt k -> h = k.
Proof. intros H K E. apply cross_inj; auto. apply rot_inj; auto; apply cross_region; auto. Qed.

(** All half edges of the adjacency map, to bound the walk. *)
Definition halves : list (nat * nat) := flat_map (fun x => map (pair (fst x)) (seq 0 (length (snd x)))) adj.
Lemma halves_length : length halves = fold_right (fun x k => length (snd x) + k) 0 adj.
Proof. apply rows_length. Qed.
Lemma region_halves h : region h -> In h halves.
Proof.
  intro R. destruct (region_row h R) as (es & F & L & N). unfold halves. apply in_flat_map. exists (fst h, es). split.
  - apply mfind_in_adj. auto.
  - cbn. apply in_map_iff. exists (snd h). split; [symmetry; apply surjective_pairing|]. apply in_seq. assert (snd h < length es) by (apply nth_error_Some; congruence). lia.
Qed.

Definition chain (l : list (nat * nat)) : Prop := forall i a b, nth_error l i = Some a -> nth_error l (S i) = Some b -> b = nxt a.
Lemma chain_snoc l a b : chain (l ++ [a]) -> b = nxt a -> chain ((l ++ [a]) ++ [b]).
Proof.
  intros C E i x y Nx Ny. destruct (Nat.lt_ge_cases (S i) (length (l ++ [a]))) as [L|L].
  - rewrite nth_error_app1 in Nx, Ny by lia. eapply C; eauto.
  - rewrite nth_error_app2 in Ny by lia. destruct (S i - length (l ++ [a])) as [|z] eqn:Z; [|destruct z; discriminate]. cbn in Ny. inversion Ny; subst.
    rewrite app_length in L, Z. cbn [length] in L, Z. assert (i = length l) by lia. subst. rewrite nth_error_app1 in Nx by (rewrite app_length; cbn; lia).
    rewrite nth_error_app2, Nat.sub_diag in Nx by lia. cbn in Nx. inversion Nx; subst. auto.
Qed.
Lemma contour_loop_spec fuel tr cur first acc : NoDup (tr ++ [cur]) -> Forall region (tr ++ [cur]) -> chain (tr ++ [cur]) -> nth_error (tr ++ [cur]) 0 = Some first ->
  acc = filter is_outer tr -> length halves < fuel + length tr ->
  exists tr' lst, contour_loop fuel s adj first cur acc = Ok (filter is_outer (tr' ++ [lst])) /\ NoDup (tr' ++ [lst]) /\ Forall region (tr' ++ [lst]) /\ chain (tr' ++ [lst]) /\
    nth_error (tr' ++ [lst]) 0 = Some first /\ nxt lst = first.
Proof.
  revert tr cur acc. induction fuel as [|fuel IH]; intros tr cur acc N R C Fi Ha L.
  - exfalso. assert (X : length (tr ++ [cur]) <= length halves) by (apply NoDup_incl_length; auto; intros h I; apply region_halves; rewrite Forall_forall in R; auto). rewrite app_length in X. cbn in X, L. lia.
  - cbn [contour_loop]. assert (Rc : region cur) by (rewrite Forall_forall in R; apply R; apply in_app_iff; right; left; auto).
    rewrite (contour_step_ok cur Rc). cbn [obind fst snd]. unfold face_edge in *.
    assert (Ha' : acc ++ opt_list (if is_outer cur then Some cur else None) = filter is_outer (tr ++ [cur])).
    { rewrite filter_app, Ha. cbn. destruct (is_outer cur); auto. }
    rewrite Ha'. destruct (edge_eqb_spec (nxt cur) first) as [E|E]; [exists tr, cur; auto 10|].
    assert (NI : ~ In (nxt cur) (tr ++ [cur])).
    { intro I. apply In_nth_error in I. destruct I as [i Ni]. destruct i as [|i]; [congruence|].
      assert (Li : i < length (tr ++ [cur])) by (assert (S i < length (tr ++ [cur])) by (apply nth_error_Some; congruence); lia).
      apply nth_error_Some in Li. destruct (nth_error (tr ++ [cur]) i) as [p|] eqn:Np; [|congruence].
      pose proof (C i p _ Np Ni) as Ep. assert (Rp : region p) by (rewrite Forall_forall in R; apply R; eapply nth_error_In; eauto).
      apply nxt_inj in Ep; auto. subst p. assert (nth_error (tr ++ [cur]) (length tr) = Some cur) by (rewrite nth_error_app2, Nat.sub_diag; auto).
      assert (i = length tr). { eapply NoDup_nth_error; eauto; [apply nth_error_Some; congruence|congruence]. }
      subst i. assert (S (length tr) < length (tr ++ [cur])) by (apply nth_error_Some; congruence). rewrite app_length in H0. cbn in H0. lia. }
    apply (IH (tr ++ [cur])); auto.
    + apply Permutation_NoDup with (nxt cur :: tr ++ [cur]); [apply Permutation_cons_append|constructor; auto].
    + apply Forall_app. split; auto. constructor; auto. apply nxt_region. auto.
    + apply chain_snoc; auto.
    + rewrite nth_error_app1; auto. rewrite app_length. cbn. lia.
    + rewrite app_length. cbn. lia.
Qed.

(** Vertices at the ends of half edges. *)
Definition src (h : nat * nat) : nat := fst (dir fs h).
Definition dst (h : nat * nat) : nat := snd (dir fs h).
Lemma src_rot h : half fs h -> src (rot h) = dst h.
Proof. intros [H1 H2]. unfold src, dst, dir, rot, edge_at. cbn [fst snd]. auto. Qed.
Lemma src_nxt h : region h -> src (nxt h) = if is_outer h then dst h else src h.
Proof.
  intros [H I]. unfold nxt, is_outer, cross, inside. destruct (twin fs h) as [[g k]|] eqn:T; cbn [negb fst]; [|apply src_rot; auto].
  destruct (count s g) eqn:C; cbn [negb]; [|apply src_rot; auto]. destruct (twin_invol fs h (g, k) W H T) as [K _]. rewrite src_rot by auto.
  pose proof (twin_spec fs h H) as G. rewrite T in G. apply glued_dir in G. destruct G as (_ & _ & D). unfold dst, src. rewrite D. auto.
Qed.
Fixpoint path (v : nat) (l : list (nat * nat)) (w : nat) : Prop := match l with [] => v = w | h :: l' => src h = v /\ path (dst h) l' w end.
Lemma chain_path l h : Forall region (l ++ [h]) -> chain (l ++ [h]) -> forall a, nth_error (l ++ [h]) 0 = Some a -> path (src a) (filter is_outer (l ++ [h])) (src (nxt h)).
Proof.
  induction l as [|x l IH]; intros R C a Na; cbn [app] in *.
  - cbn in Na. inversion Na; subst. cbn [filter]. inversion R; subst. rewrite src_nxt by auto. destruct (is_outer a); cbn; auto.
  - cbn in Na. inversion Na; subst. inversion R as [|? ? Rx R']; subst. destruct (nth_error (l ++ [h]) 0) as [b|] eqn:Nb; [|destruct l; discriminate].
    assert (Eb : b = nxt a) by (apply (C 0); auto).
    assert (P : path (src b) (filter is_outer (l ++ [h])) (src (nxt h))) by (apply IH; auto; intros i y z Ny Nz; apply (C (S i)); auto).
    rewrite Eb in P. rewrite src_nxt in P by auto. cbn [filter]. destruct (is_outer a); cbn; auto.
Qed.
Lemma path_nth v l w : path v l w -> forall i h k, nth_error l i = Some h -> (if Nat.eqb (S i) (length l) then k = w else exists k', nth_error l (S i) = Some k' /\ k = src k') -> dst h = k.
Proof.
  revert v. induction l as [|x l IH]; intros v P i h k Ni Nk; [destruct i; discriminate|]. destruct P as [Ex P]. destruct i as [|i]; cbn in Ni.
  - inversion Ni; subst. destruct l as [|y l]; cbn [length Nat.eqb nth_error path] in Nk, P; [congruence|]. destruct Nk as (k' & Hk & ->). inversion Hk; subst. destruct P. congruence.
  - eapply (IH _ P i); eauto.
Qed.
Lemma outer_iff h : region h -> (is_outer h = true <-> outer fs s h).
Proof.
  intros [H I]. unfold is_outer, inside, outer. pose proof (twin_spec fs h H) as T. destruct (twin fs h) as [[g k]|] eqn:E; split.
  - intro N. apply negb_true_iff, count_notin in N. split; auto. split; [exists (fst (dir fs h)), (snd (dir fs h)); apply side_of_half; split; auto; apply surjective_pairing|].
    intros k' G. rewrite (twin_some fs h k' W G) in E. inversion E; subst. auto.
  - intros (_ & _ & N). apply negb_true_iff, count_notin. apply (N (g, k)). auto.
  - intros _. split; auto. split; [exists (fst (dir fs h)), (snd (dir fs h)); apply side_of_half; split; auto; apply surjective_pairing|]. intros k G. exfalso. eapply T; eauto.
  - auto.
Qed.
Lemma path_walk l v : Forall region l -> path v l v -> walk fs l.
Proof.
  intros R P i h k Nh Nk. rewrite Forall_forall in R. assert (Rh : region h) by (apply R; eapply nth_error_In; eauto). assert (Rk : region k) by (apply R; eapply nth_error_In; eauto).
  assert (E : dst h = src k).
  { eapply path_nth; eauto. destruct (Nat.eqb (S i) (length l)) eqn:El; [|eauto]. destruct l as [|x l]; [destruct i; discriminate|]. cbn in Nk. inversion Nk; subst. destruct P. auto. }
  exists (src h), (dst h), (dst k). split; apply side_of_half; split; try apply Rh; try apply Rk; [unfold src, dst|rewrite E; unfold src, dst]; apply surjective_pairing.
Qed.

(** ** FindOuterFaceEdgeIndex *)
Lemma find_outer_spec es j : match find_outer s es j with
  | Some k => j <= k /\ exists fe, nth_error es (k - j) = Some fe /\ inside s fe = false
  | None => forall fe, In fe es -> inside s fe = true end.
Proof.
  revert j. induction es as [|fe es IH]; intro j; cbn; [tauto|]. destruct (inside s fe) eqn:E; cbn.
  - specialize (IH (S j)). destruct (find_outer s es (S j)) as [k|].
    + destruct IH as (L & x & N & I). split; [lia|]. exists x. split; auto. replace (k - j) with (S (k - S j)) by lia. auto.
    + intros x [<-|I]; auto.
  - split; [lia|]. exists fe. rewrite Nat.sub_diag. auto.
Qed.
Lemma find_outer_face_edge l : (forall f, In f l -> In f s /\ f < length fs /\ 0 < length (nth f fs [])) ->
  (exists h, FindOuterFaceEdgeIndex s l adj = Ok (Some h) /\ region h /\ is_outer h = true) \/
  (FindOuterFaceEdgeIndex s l adj = Ok None /\ forall h, half fs h -> In (fst h) l -> is_outer h = false).
Proof.
  induction l as [|f l IH]; intro V; cbn [FindOuterFaceEdgeIndex]; [right; split; auto; intros h _ []|].
  destruct (V f (or_introl eq_refl)) as (I & L & P). destruct (a_all fs adj A (f, 0)) as [es F]; [split; auto|]. cbn [fst] in F. rewrite F.
  destruct (a_some fs adj A _ _ F) as [_ [Le R]]. pose proof (find_outer_spec es 0) as O. destruct (find_outer s es 0) as [j|].
  - left. exists (f, j). split; auto. destruct O as (_ & fe & N & Ii). rewrite Nat.sub_0_r in N. assert (Lj : j < length es) by (apply nth_error_Some; congruence).
    split; [split; auto; split; cbn; auto; lia|]. unfold is_outer. rewrite R in N by auto. inversion N; subst. rewrite Ii. auto.
  - destruct IH as [X|[X Y]]; [intros; apply V; right; auto|left; auto|right]. split; auto. intros h H [Eh|Ih]; auto.
    unfold is_outer. destruct H as [H1 H2]. rewrite <- Eh in H2. rewrite (O (twin fs h)); auto. apply nth_error_In with (n := snd h). rewrite (R (snd h)) by (rewrite Le; auto). rewrite Eh, <- surjective_pairing. auto.
Qed.

Lemma contour_spec : (forall f, In f s -> f < length fs /\ 0 < length (nth f fs [])) ->
  (exists l, ComputeMeshFacesContour s adj = Ok l /\ outline fs s l) \/ (ComputeMeshFacesContour s adj = Throw /\ forall h, ~ outer fs s h).
Proof.
  intro V. unfold ComputeMeshFacesContour. destruct (find_outer_face_edge s) as [(h & -> & R & O)|[-> N]]; [intros f I; split; auto| |]; cbn [obind].
  - left. destruct (contour_loop_spec (S (fold_right (fun x k => length (snd x) + k) 0 adj)) [] h h []) as (tr & lst & E & Nd & Rg & C & Fi & Nx); auto.
    + cbn. constructor; [intros []|constructor].
    + cbn. constructor; auto.
    + intros [|i] x y Nx Ny; [discriminate|destruct i; discriminate].
    + rewrite halves_length. lia.
    + exists (filter is_outer (tr ++ [lst])). split; [exact E|].
      assert (Rf : Forall region (filter is_outer (tr ++ [lst]))) by (rewrite Forall_forall in *; intros x I; apply filter_In in I; apply Rg; tauto).
      assert (Ih : In h (filter is_outer (tr ++ [lst]))) by (apply filter_In; split; auto; eapply nth_error_In; eauto).
      split; [intro X; rewrite X in Ih; destruct Ih|]. split; [apply NoDup_filter; auto|]. split.
      * intros k I. rewrite Forall_forall in Rf. apply outer_iff; [apply Rf; auto|]. apply filter_In in I. tauto.
      * pose proof (chain_path tr lst Rg C h Fi) as P. rewrite Nx in P. eapply path_walk; eauto.
  - right. split; [reflexivity|]. intros h Oh. pose proof Oh as (I & (a & b & S0) & _). apply side_of_half in S0. destruct S0 as [H _].
    specialize (N h H I). assert (is_outer h = true) by (apply outer_iff; [split; auto|auto]). congruence.
Qed.
End Contour.
