(** Proofs for C49: the simplified mesh. *)
From Coq Require Import List QArith Bool Arith Lia Permutation.
From Verif Require Import Base Maps Mesh_Model Mesh_Spec Mesh_Proofs Simplify_Model Simplify_Spec Simplify_Proofs Simplify_Proofs2 Simplify_Proofs3 Simplify_Proofs4.
Import ListNotations.
Local Open Scope nat_scope.

Lemma covered_map {E F} (f : E -> F) (ok : E -> E -> list E -> Prop) (ok' : F -> F -> list F -> Prop) l out :
  covered ok l out -> (forall x y mid, incl (x :: y :: mid) l -> ok x y mid -> ok' (f x) (f y) (map f mid)) -> covered ok' (map f l) (map f out).
Proof.
  induction 1 as [x|x y mid l out H C IH]; intro M; cbn; [constructor|]. rewrite map_app. cbn. apply cov_keep.
  - apply M; auto. intros z [<-|[<-|I]]; cbn; auto; right; apply in_app_iff; cbn; auto.
  - apply IH. intros a b c I. apply M. intros z Iz. right. apply in_app_iff. right. apply I. auto.
Qed.
Lemma covered_refl {E} (ok : E -> E -> list E -> Prop) l : (forall x y, ok x y []) -> l <> [] -> covered ok l l.
Proof. intros Z N. induction l as [|x [|y l] IH]; [congruence|constructor|]. apply (cov_keep ok x y []); auto. apply IH. discriminate. Qed.
Lemma covered_incl {E} (ok : E -> E -> list E -> Prop) l out : covered ok l out -> incl out l.
Proof. induction 1 as [x|x y mid l out H C IH]; [apply incl_refl|]. intros z [<-|I]; [left; auto|]. right. apply in_app_iff. right. apply IH. auto. Qed.
Lemma covered_nonempty {E} (ok : E -> E -> list E -> Prop) l out : covered ok l out -> out <> [].
Proof. destruct 1; discriminate. Qed.

Section Merge.
Variable m : geo_mesh.
Variable V : Forall (valid_face m) (mfaces m).
Variable tol : Q.
Variable Tol : (0 <= tol)%Q.
Notation fs := (mfaces m).

Lemma half_corner h : half fs h -> exists c p, MeshFaceVertexAt m h = Ok c /\ corner_of m c p /\ corner_at m h p.
Proof.
  intros [H1 H2]. assert (Nf : nth_error fs (fst h) = Some (nth (fst h) fs [])) by (apply nth_error_nth'; auto).
  rewrite Forall_forall in V. destruct (V (nth (fst h) fs [])) as [ps S0]; [apply nth_In; auto|].
  destruct (nth_error (nth (fst h) fs []) (snd h)) as [c|] eqn:Nc; [|apply nth_error_None in Nc; lia].
  assert (exists p, corner_of m c p) as [p Cp].
  { clear - S0 Nc. revert Nc. generalize (snd h) as j. induction S0 as [|x p l ps P S0 IH]; intros j Nc; [destruct j; discriminate|]. destruct j as [|j]; cbn in Nc; [inversion Nc; subst; eauto|eauto]. }
  exists c, p. split; [|split; auto]. { unfold MeshFaceVertexAt, at_. rewrite Nf. cbn [obind]. rewrite Nc. auto. } exists (nth (fst h) fs []), c. auto.
Qed.
Lemma positions_spec l : Forall (half fs) l -> exists ps, all_at (fun fv => obind (MeshFaceVertexAt m fv) (GetMeshFaceVertexPosition m)) l = Ok ps /\
  Forall2 (fun h v => exists p, corner_at m h p /\ fst p = v) l ps.
Proof.
  induction 1 as [|h l H Hl (ps & E & F)]; cbn [all_at]; [exists []; split; auto|]. destruct (half_corner h H) as (c & p & -> & Cp & Ca). cbn [obind].
  unfold GetMeshFaceVertexPosition at 1, at_. destruct Cp as [C1 C2]. rewrite C1. cbn [obind]. rewrite E. cbn [obind]. exists (fst p :: ps). split; auto. constructor; eauto.
Qed.
Lemma combine_positions (l : list (nat * nat)) (ps : list vec) (R : nat * nat -> vec -> Prop) : Forall2 R l ps -> map fst (combine l ps) = l /\ forall x, In x (combine l ps) -> R (fst x) (snd x).
Proof. induction 1 as [|h v l ps H F [E I]]; cbn; [tauto|]. rewrite E. split; auto. intros x [<-|J]; auto. Qed.
Lemma simplify_contour_spec l : l <> [] -> Forall (half fs) l -> exists kept, SimplifyMeshFacesContour m l tol = Ok kept /\ covered (straight m tol) l kept.
Proof.
  intros Ne Hl. unfold SimplifyMeshFacesContour. unfold face_edge in *. destruct (Nat.leb (length l) 3).
  - exists l. split; auto. apply covered_refl; auto. intros x y e [].
  - destruct (positions_spec l Hl) as (ps & Eps & F). unfold face_edge in *. rewrite Eps. cbn [obind]. destruct (combine_positions l ps _ F) as [Ec Ic].
    destruct (dp_covered (@snd face_edge vec) (length (combine l ps)) tol (combine l ps)) as (out & E & C); auto.
    { intro X. rewrite X in Ec. cbn in Ec. congruence. }
    unfold ApplyDouglasPeuckerSimplification. unfold face_edge in *. rewrite E. cbn [omap]. exists (map fst out). split; auto. rewrite <- Ec at 1.
    eapply covered_map; [exact C|]. intros x y mid Inc D e Ie. apply in_map_iff in Ie. destruct Ie as (z & <- & Iz).
    destruct (Ic x) as (px & Cx & Ex); [apply Inc; left; auto|]. destruct (Ic y) as (py & Cy & Ey); [apply Inc; right; left; auto|]. destruct (Ic z) as (pz & Cz & Ez); [apply Inc; right; right; auto|].
    exists px, py, pz. repeat (split; [assumption|]). rewrite Ex, Ey, Ez. apply D. auto.
Qed.
Lemma merge_loop_spec l : Forall (half fs) l -> forall f, length (gvertices f) = length (gnormals f) ->
  exists f' ps, merge_loop m l f = Ok f' /\ length (gvertices f') = length (gnormals f') /\ corners f' = corners f ++ ps /\ Forall2 (corner_at m) l ps.
Proof.
  induction 1 as [|h l H Hl IH]; intros f Lf; cbn [merge_loop]; [exists f, []; rewrite app_nil_r; auto|].
  destruct (half_corner h H) as (c & p & -> & [C1 C2] & Ca). cbn [obind]. rewrite C1, C2.
  destruct (IH (push_vn (fst p) (snd p) f)) as (f' & ps & E & L' & Co & F). { unfold push_vn. cbn. rewrite !app_length, Lf. auto. }
  exists f', (p :: ps). split; auto. split; auto. split; [|constructor; auto]. rewrite Co. unfold corners, push_vn. cbn. rewrite combine_snoc by auto. rewrite <- app_assoc. cbn. rewrite <- surjective_pairing. auto.
Qed.
Lemma outline_halves s l : outline fs s l -> Forall (half fs) l.
Proof. intros (_ & _ & O & _). apply Forall_forall. intros h I. destruct (O h I) as (_ & (a & b & S0) & _). apply side_of_half in S0. tauto. Qed.
Lemma merge_spec (W : well_oriented fs) adj (A : adj_ok fs adj) s : (forall f, In f s -> f < length fs /\ 0 < length (nth f fs [])) ->
  (exists f, MergeMeshFaces m s adj tol = Ok f /\ length (gvertices f) = length (gnormals f) /\ merged m tol s (corners f)) \/
  (MergeMeshFaces m s adj tol = Throw /\ forall h, ~ outer fs s h).
Proof.
  intro Vs. unfold MergeMeshFaces. destruct (contour_spec fs W adj A s Vs) as [(l & -> & O)|[-> O]]; [left|right; auto]. cbn [obind].
  pose proof (outline_halves s l O) as Hl. destruct (simplify_contour_spec l) as (kept & -> & C); [apply O|auto|]. cbn [obind].
  assert (Hk : Forall (half fs) kept) by (rewrite Forall_forall in *; intros x I; apply Hl; eapply covered_incl; eauto).
  destruct (merge_loop_spec kept Hk (mk_face [] [])) as (f & ps & -> & L & Co & F); auto. exists f. split; auto. split; auto. cbn in Co. rewrite Co. exists l, kept. auto.
Qed.
End Merge.

Lemma group_of_ext m tol b b' seed g : (forall x, In x b <-> In x b') -> group_of m tol b seed g -> group_of m tol b' seed g.
Proof.
  intros E [G1 G2 G3 G4 G5 G6]. constructor; auto; [intros f I J; apply (G3 f I), E; auto|]. intros Fc f h I Nb Fh. destruct (G6 Fc f h I Nb Fh); auto. right. apply E. auto.
Qed.
Lemma grouping_snoc m tol groups seed g : grouping m tol groups -> (forall f, f < seed -> In f (concat groups)) -> group_of m tol (concat groups) seed g -> (forall f, In f g -> f < length (mfaces m)) ->
  grouping m tol (groups ++ [g]).
Proof.
  intros (N & L & P) Lt G Lg. split; [|split].
  - rewrite concat_app. cbn. rewrite app_nil_r. apply Permutation_NoDup with (g ++ concat groups); [apply Permutation_app_comm|].
    clear P. destruct G as [_ Gn Gd _ _ _]. induction Gn as [|x g Nx Gn IH]; cbn; auto. constructor.
    + intro I. apply in_app_iff in I. destruct I as [I|I]; auto. apply (Gd x (or_introl eq_refl) I).
    + apply IH; intros; [apply Gd; right; auto|apply Lg; right; auto].
  - intros f I. rewrite concat_app in I. apply in_app_iff in I. destruct I as [I|I]; auto. cbn in I. rewrite app_nil_r in I. auto.
  - intros pre g' post E. destruct (exists_last (l := g' :: post)) as (q & z & Eq); [discriminate|]. rewrite Eq, app_assoc in E. apply app_inj_tail in E. destruct E as [E1 E2]. subst z.
    destruct q as [|q0 q]; cbn in Eq.
    + inversion Eq; subst. rewrite app_nil_r in *. exists seed. auto.
    + inversion Eq; subst. apply (P pre q0 q). auto.
Qed.

Section Loop.
Variable m : geo_mesh.
Variable V : Forall (valid_face m) (mfaces m).
Variable Three : Forall (fun f => 3 <= length f) (mfaces m).
Variable Normals : forall nv, In nv (ivector (mnormals m)) -> ~ (dot nv nv == 0)%Q.
Variable W : well_oriented (mfaces m).
Variable adj : adjacency.
Variable A : adj_ok (mfaces m) adj.
Variable tol : Q.
Variable Tol : (0 < tol)%Q.
Notation fs := (mfaces m).
Notation N := (length fs).

Lemma simplify_loop_spec k : forall i visited out groups given, i + k = N -> built out given -> Forall2 (merged m tol) groups given -> grouping m tol groups ->
  (forall x, In x visited <-> In x (concat groups)) -> (forall x, x < i -> In x visited) ->
  (exists out' groups' given', simplify_loop m adj tol (seq i k) visited out groups = Ok (out', groups') /\ built out' given' /\ Forall2 (merged m tol) groups' given' /\
     grouping m tol groups' /\ (forall x, x < N -> In x (concat groups'))) \/
  (simplify_loop m adj tol (seq i k) visited out groups = Throw /\ exists groups' g, grouping m tol (groups' ++ [g]) /\ forall h, ~ outer fs g h).
Proof.
  induction k as [|k IH]; intros i visited out groups given Ei B F G Hv Hi; cbn [seq simplify_loop].
  - left. exists out, groups, given. repeat (split; [solve [auto]|]). intros x L. apply Hv, Hi. lia.
  - destruct (count visited i) eqn:C; [apply count_in in C|apply count_notin in C].
    + apply (IH (S i) visited out groups given); auto; [lia|]. intros x L. destruct (Nat.eq_dec x i) as [->|]; auto. apply Hi. lia.
    + destruct (aggregate_spec m V Three Normals W adj A tol Tol i visited) as (mer & vis & -> & Gr & Lm & Hvis); auto; [lia|]. cbn [obind fst snd].
      assert (G' : grouping m tol (groups ++ [mer])).
      { apply (grouping_snoc m tol groups i mer); auto; [intros f L; apply Hv, Hi; auto|]. apply (group_of_ext m tol visited); auto. }
      destruct (merge_spec m V tol (Qlt_le_weak _ _ Tol) W adj A mer) as [(f & -> & Lf & Mg)|[-> No]].
      { intros f I. split; auto. rewrite Forall_forall in Three. pose proof (Three (nth f fs []) (nth_In fs [] (Lm f I))). lia. }
      * cbn [obind]. assert (exists out', PushFace f out = Ok out') as [out' Po].
        { unfold PushFace. destruct (push_corners_ok (gvertices f) (gnormals f) out []) as [r ->]; [lia|]. destruct r. cbn. eauto. }
        rewrite Po. cbn [obind]. apply (IH (S i) vis out' (groups ++ [mer]) (given ++ [corners f])); auto.
        -- lia.
        -- eapply built_push; eauto.
        -- apply Forall2_app; auto.
        -- intro x. rewrite Hvis, Hv, concat_app, in_app_iff. cbn. rewrite app_nil_r. tauto.
        -- intros x L. apply Hvis. destruct (Nat.eq_dec x i) as [->|D]; [right; apply Gr|left; apply Hi; lia].
      * right. cbn [obind]. split; auto. exists groups, mer. auto.
Qed.
End Loop.
Lemma simplify_spec order m given0 tol : built m given0 -> (forall l, Permutation l (order l)) -> Forall (fun f => 3 <= length f) (mfaces m) ->
  (forall nv, In nv (ivector (mnormals m)) -> ~ (dot nv nv == 0)%Q) -> (0 < tol)%Q ->
  (well_oriented (mfaces m) /\ exists out groups given, SimplifyMeshFaces order m tol = Ok (out, groups) /\ built out given /\ Forall2 (merged m tol) groups given /\
     grouping m tol groups /\ Permutation (concat groups) (seq 0 (length (mfaces m)))) \/
  (well_oriented (mfaces m) /\ SimplifyMeshFaces order m tol = Throw /\ exists groups g, grouping m tol (groups ++ [g]) /\ forall h, ~ outer (mfaces m) g h) \/
  (~ well_oriented (mfaces m) /\ SimplifyMeshFaces order m tol = Throw).
Proof.
  intros B Po Th Nm Tl. unfold SimplifyMeshFaces. destruct (adjacency_spec order (mfaces m) Po) as [(W & adj & -> & A)|[W ->]]; [|auto]. cbn [obind].
  destruct (simplify_loop_spec m (built_valid m given0 B) Th Nm W adj A tol Tl (length (mfaces m)) 0 [] GeoMesh [] []) as [(out & groups & given & E & Bo & F & G & All)|[E X]]; auto.
  - constructor.
  - split; [constructor|]. split; [intros f []|]. intros [|x pre] g post E; discriminate.
  - intro x. cbn. tauto.
  - intros x L. lia.
  - left. split; auto. exists out, groups, given. repeat (split; [solve [auto]|]). apply NoDup_Permutation; [apply G|apply seq_NoDup|]. intro x. rewrite in_seq. split; [intro I; apply G in I; lia|intro L; apply All; lia].
Qed.
