(** Proofs for C49: groups of faces. *)
From Coq Require Import List QArith Qfield Lqa Bool Arith Lia Permutation.
From Verif Require Import Base Maps Mesh_Model Mesh_Spec Mesh_Proofs Simplify_Model Simplify_Spec Simplify_Proofs Simplify_Proofs2 Simplify_Proofs3.
Import ListNotations.
Local Open Scope nat_scope.

(** ** The plane test *)
Lemma vdot_dot a b : vdot a b = dot a b.
Proof. reflexivity. Qed.
Lemma dot_nonneg a : (0 <= dot a a)%Q.
Proof. unfold dot. pose proof (sq_nonneg (vx a)). pose proof (sq_nonneg (vy a)). pose proof (sq_nonneg (vz a)). lra. Qed.
Lemma dot_zero_l a b : (dot a a == 0)%Q -> (dot a b == 0)%Q.
Proof. unfold dot. intro H. apply sum_sq in H. destruct H as (A & B & C). rewrite A, B, C. ring. Qed.
Lemma Qdiv_lt_iff (a b c d : Q) : (0 < b -> 0 < d -> a / b < c / d <-> a * d < c * b)%Q.
Proof.
  intros B D. setoid_replace (a * d)%Q with ((a / b) * (b * d))%Q by (field; lra). setoid_replace (c * b)%Q with ((c / d) * (b * d))%Q by (field; lra).
  assert (0 < b * d)%Q by nra. split; intro X; [apply Qmult_lt_compat_r; auto|]. apply (Qmult_lt_r _ _ (b * d)); auto.
Qed.
Lemma vertex_on_plane_spec n p tol q nv : ~ (dot nv nv == 0)%Q -> exists b, vertex_on_plane n p tol q nv = Ok b /\
  (b = true <-> on_plane n p tol (q, nv) /\ ~ (dot n nv == 0)%Q).
Proof.
  intro Z. unfold vertex_on_plane. change vdot with dot. destruct (Qeq_bool (dot nv nv) 0) eqn:E1; [apply Qeq_bool_eq in E1; contradiction|].
  destruct (Qeq_bool (dot n nv) 0) eqn:E2.
  - apply Qeq_bool_eq in E2. exists false. split; auto. split; [discriminate|]. intros [_ X]. contradiction.
  - apply Qeq_bool_neq in E2. eexists. split; [reflexivity|].
    assert (Pn : (0 < dot n n)%Q). { destruct (Qlt_le_dec 0 (dot n n)); auto. exfalso. apply E2. apply dot_zero_l. pose proof (dot_nonneg n). lra. }
    assert (Pv : (0 < dot nv nv)%Q). { pose proof (dot_nonneg nv). destruct (Qlt_le_dec 0 (dot nv nv)); auto. exfalso. apply Z. lra. }
    set (c := dot n nv) in *. set (D := dot n n) in *. set (E := dot nv nv) in *.
    assert (Pc : (0 < c * c)%Q). { pose proof (sq_nonneg c). destruct (Qlt_le_dec 0 (c * c)); auto. exfalso. apply E2. apply sq_zero. lra. }
    unfold on_plane. cbn [fst snd]. fold c D E. set (nq := dot n q). set (np := dot n p).
    assert (X : ((nq - np) * (nq - np) / D < tol * tol * (c * c / E) <-> (nq - np) * (nq - np) * E < tol * tol * (c * c) * D)%Q).
    { setoid_replace (tol * tol * (c * c / E))%Q with ((tol * tol * (c * c)) / E)%Q by (field; lra). apply Qdiv_lt_iff; auto. }
    rewrite Qltb_true, X. split.
    + intro L. split; auto. exists (- (nq - np) / c)%Q. split; [field; auto|].
      apply (Qmult_lt_r _ _ (c * c)); auto. setoid_replace (- (nq - np) / c * (- (nq - np) / c) * E * (c * c))%Q with ((nq - np) * (nq - np) * E)%Q by (field; auto).
      setoid_replace (tol * tol * D * (c * c))%Q with (tol * tol * (c * c) * D)%Q by ring. auto.
    + intros [(t & Ht & L) _]. setoid_replace (nq - np)%Q with (- (t * c))%Q by (rewrite <- Ht; ring).
      setoid_replace (- (t * c) * - (t * c) * E)%Q with (t * t * E * (c * c))%Q by ring. setoid_replace (tol * tol * (c * c) * D)%Q with (tol * tol * D * (c * c))%Q by ring.
      apply Qmult_lt_compat_r; auto.
Qed.
Definition firm (n p : vec) (tol : Q) (c : vec * vec) : Prop := on_plane n p tol c /\ ~ (dot n (snd c) == 0)%Q.
Lemma vertices_on_plane_spec m l ps n p tol : stands_for m l ps -> Forall (fun c => ~ (dot (snd c) (snd c) == 0)%Q) ps ->
  exists b, DoMeshVerticesLieOnPlane m l n p tol = Ok b /\ (b = true <-> Forall (firm n p tol) ps).
Proof.
  intros S0 Z. induction S0 as [|c [q nv] l ps [C1 C2] S0 IH]; cbn [DoMeshVerticesLieOnPlane]; [exists true; split; auto; split; auto|].
  inversion Z as [|? ? Z1 Z2]; subst. unfold GetMeshFaceVertexPosition, GetMeshFaceVertexNormal, at_. cbn [fst snd] in *. rewrite C1, C2. cbn [obind].
  destruct (vertex_on_plane_spec n p tol q nv Z1) as (b & -> & B). cbn [obind]. destruct b.
  - destruct (IH Z2) as (b' & -> & B'). exists b'. split; auto. rewrite B'. split; [intro F; constructor; auto; apply B; auto|intro F; inversion F; auto].
  - exists false. split; auto. split; [discriminate|]. intro F. inversion F as [|? ? F1 F2]; subst. apply B in F1. discriminate.
Qed.

(** ** std::set *)
Lemma in_insert x y s : In x (insert y s) <-> x = y \/ In x s.
Proof.
  induction s as [|z s IH]; cbn [insert]; [cbn; intuition congruence|]. destruct (Nat.ltb y z); [cbn; intuition congruence|]. destruct (Nat.eqb_spec y z) as [->|N]; cbn [In]; [intuition congruence|]. rewrite IH. intuition congruence.
Qed.
Lemma insert_perm y s : ~ In y s -> Permutation (insert y s) (y :: s).
Proof.
  induction s as [|z s IH]; cbn [insert In]; intro N; auto. destruct (Nat.ltb y z); auto. destruct (Nat.eqb_spec y z) as [->|N']; [exfalso; auto|].
  eapply perm_trans; [apply perm_skip, IH; auto|apply perm_swap].
Qed.
Lemma insert_nodup y s : ~ In y s -> NoDup s -> NoDup (insert y s).
Proof. intros N D. eapply Permutation_NoDup; [symmetry; apply insert_perm; auto|constructor; auto]. Qed.
Lemma insert_length y s : ~ In y s -> length (insert y s) = S (length s).
Proof. intro N. rewrite (Permutation_length (insert_perm y s N)). auto. Qed.
Lemma linked_mono fs s s' f g : incl s s' -> linked fs s f g -> linked fs s' f g.
Proof. intros I. induction 1 as [|g h L IH Nb Ih]; [constructor|]. eapply linked_step; eauto. Qed.
Lemma bounded_length l k : NoDup l -> (forall x, In x l -> x < k) -> length l <= k.
Proof. intros N B. rewrite <- (seq_length k 0). apply NoDup_incl_length; auto. intros x I. apply in_seq. specialize (B x I). lia. Qed.

Section Groups.
Variable m : geo_mesh.
Variable V : Forall (valid_face m) (mfaces m).
Variable Three : Forall (fun f => 3 <= length f) (mfaces m).
Variable Normals : forall nv, In nv (ivector (mnormals m)) -> ~ (dot nv nv == 0)%Q.
Variable W : well_oriented (mfaces m).
Variable adj : adjacency.
Variable A : adj_ok (mfaces m) adj.
Variable tol : Q.
Variable Tol : (0 < tol)%Q.
Notation fs := (mfaces m).
Notation N := (length fs).

Lemma face_valid g : g < N -> exists ps, stands_for m (nth g fs []) ps /\ 3 <= length (nth g fs []) /\ Forall (fun c => ~ (dot (snd c) (snd c) == 0)%Q) ps /\
  nth_error fs g = Some (nth g fs []).
Proof.
  intro L. pose proof (nth_In fs [] L) as I. rewrite Forall_forall in V, Three. destruct (V _ I) as [ps S0]. exists ps. split; auto. split; auto. split; [|apply nth_error_nth'; auto].
  clear I. induction S0 as [|c p l ps [_ C2] S0 IH]; constructor; auto. apply Normals. eapply nth_error_In; eauto.
Qed.
Lemma corner_at_nth g j c ps : g < N -> stands_for m (nth g fs []) ps -> (corner_at m (g, j) c <-> nth_error ps j = Some c).
Proof.
  intros L S0. assert (Ng : nth_error fs g = Some (nth g fs [])) by (apply nth_error_nth'; auto). unfold corner_at. cbn [fst snd]. rewrite Ng. clear Ng. revert j. split.
  - intros (f & d & Ef & Nd & C). inversion Ef; subst f. clear Ef. revert j Nd. induction S0 as [|x p l ps [P1 P2] S0 IH]; intros j Nd; [destruct j; discriminate|]. destruct j as [|j]; cbn in *; auto.
    inversion Nd; subst. destruct C as [C1 C2]. destruct p, c. cbn in *. congruence.
  - intro Nc. exists (nth g fs []). revert j Nc. induction S0 as [|x p l ps P S0 IH]; intros j Nc; [destruct j; discriminate|]. destruct j as [|j]; cbn in *.
    + inversion Nc; subst. exists x. auto.
    + destruct (IH j Nc) as (d & _ & Nd & Cd). exists d. auto.
Qed.
(** The test of a face against the plane of the seed. *)
Lemma coplanar_spec seed n p g : corner_at m (seed, 0) (p, n) -> g < N -> exists b, IsMeshFaceCoplanarWithPlane m (nth g fs []) n p tol = Ok b /\
  (b = true <-> firmly_coplanar_with m tol seed g).
Proof.
  intros C L. destruct (face_valid g L) as (ps & S0 & _ & Z & _). destruct (vertices_on_plane_spec m _ ps n p tol S0 Z) as (b & E & B). exists b. split; auto. rewrite B. split.
  - intro F. exists (p, n). split; auto. intros j c Cj. apply (corner_at_nth g j c ps L S0) in Cj. rewrite Forall_forall in F. apply F. eapply nth_error_In; eauto.
  - intros ([p' n'] & C' & F). assert ((p', n') = (p, n)) as E'.
    { destruct C as (f & c & E1 & E2 & E3), C' as (f' & c' & E1' & E2' & E3'). rewrite E1 in E1'. inversion E1'; subst f'. rewrite E2 in E2'. inversion E2'; subst c'.
      destruct E3 as [X1 X2], E3' as [Y1 Y2]. cbn in *. congruence. }
    inversion E'; subst. apply Forall_forall. intros c I. apply In_nth_error in I. destruct I as [j Nj]. apply (F j). apply (corner_at_nth g j c ps L S0). auto.
Qed.
Lemma firmly_coplanar seed g : firmly_coplanar_with m tol seed g -> coplanar_with m tol seed g.
Proof. intros (p & C & F). exists p. split; auto. intros j c Cj. apply (F j c Cj). Qed.
Lemma planar_spec seed : seed < N -> exists b n p, IsMeshFacePlanar m (nth seed fs []) tol = Ok (b, n, p) /\ corner_at m (seed, 0) (p, n) /\
  (firmly_coplanar_with m tol seed seed -> b = true).
Proof.
  intro L. destruct (face_valid seed L) as (ps & S0 & L3 & Z & _). unfold IsMeshFacePlanar. destruct (Nat.leb_spec 3 (length (nth seed fs []))); [|lia]. cbn [throw_unless].
  assert (C0 : forall c, corner_at m (seed, 0) c <-> nth_error ps 0 = Some c) by (intro; apply corner_at_nth; auto).
  assert (Cj : forall j c, corner_at m (seed, j) c <-> nth_error ps j = Some c) by (intros; apply corner_at_nth; auto).
  remember (nth seed fs []) as f. destruct S0 as [|c [q nv] l ps [C1 C2] S0]; [cbn in L3; lia|]. cbn [nth tl]. unfold GetMeshFaceVertexPosition, GetMeshFaceVertexNormal, at_. cbn [fst snd] in *.
  rewrite C1, C2. cbn [obind]. inversion Z as [|? ? Z1 Z2]; subst. destruct (vertices_on_plane_spec m l ps nv q tol S0 Z2) as (b & -> & B). cbn [obind]. exists b, nv, q. split; auto. split; [apply C0; auto|].
  intros (p' & Cp & F). apply C0 in Cp. cbn in Cp. inversion Cp; subst. apply B. apply Forall_forall. intros c' I. apply In_nth_error in I. destruct I as [j Nj]. apply (F (S j)). apply Cj. auto.
Qed.
Lemma twin_neighbour f i g k : half fs (f, i) -> twin fs (f, i) = Some (g, k) -> neighbours fs f g /\ g < N.
Proof.
  intros H T. pose proof (twin_spec fs (f, i) H) as G. rewrite T in G. split; [exists i, k; auto|]. destruct (twin_invol fs _ _ W H T) as [[K _] _]. auto.
Qed.

(** ** The search *)
Section Search.
Variable before : list nat.
Variable seed : nat.
Variables n p : vec.
Variable Plane : corner_at m (seed, 0) (p, n).

Record grown (mer : list nat) : Prop := {
  gw_seed : In seed mer;
  gw_nodup : NoDup mer;
  gw_lt : forall f, In f mer -> f < N;
  gw_new : forall f, In f mer -> ~ In f before;
  gw_linked : forall f, In f mer -> linked fs mer seed f;
  gw_coplanar : forall f, In f mer -> f = seed \/ coplanar_with m tol seed f }.
Lemma grown_insert mer f g : grown mer -> In f mer -> ~ In g mer -> ~ In g before -> g < N -> neighbours fs f g -> coplanar_with m tol seed g -> grown (insert g mer).
Proof.
  intros G If Ng Nb L Nf C. assert (I : incl mer (insert g mer)) by (intros x Ix; apply in_insert; auto). destruct G as [G1 G2 G3 G4 G5 G6]. constructor.
  - auto.
  - apply insert_nodup; auto.
  - intros x Ix. apply in_insert in Ix. destruct Ix as [->|Ix]; auto.
  - intros x Ix. apply in_insert in Ix. destruct Ix as [->|Ix]; auto.
  - intros x Ix. apply in_insert in Ix. destruct Ix as [->|Ix].
    + eapply linked_step; [eapply linked_mono; [exact I|apply G5; exact If]|auto|apply in_insert; auto].
    + eapply linked_mono; eauto.
  - intros x Ix. apply in_insert in Ix. destruct Ix as [->|Ix]; auto.
Qed.
Lemma edges_loop_spec f visited es : (forall x, In x before -> In x visited) -> (forall g k, In (Some (g, k)) es -> neighbours fs f g /\ g < N) ->
  forall mer queue, grown mer -> In f mer -> (forall x, In x visited -> In x before \/ In x mer) -> NoDup queue -> incl queue mer ->
  exists mer' added, edges_loop m n p tol visited es mer queue = Ok (mer', queue ++ added) /\ grown mer' /\ incl mer mer' /\ (forall x, In x mer' <-> In x mer \/ In x added) /\
    (forall x, In x added -> ~ In x mer) /\ NoDup (queue ++ added) /\ length mer' = length mer + length added /\
    (forall g k, In (Some (g, k)) es -> firmly_coplanar_with m tol seed g -> In g mer' \/ In g before).
Proof.
  intro Vb. induction es as [|o es IH]; intros Ne mer queue G If Hv Nq Iq; cbn [edges_loop].
  - exists mer, []. rewrite app_nil_r. repeat split; try apply G; auto; try (intros; cbn in *; tauto); try (apply incl_refl); try (cbn; lia).
  - assert (Ne' : forall g k, In (Some (g, k)) es -> neighbours fs f g /\ g < N) by (intros; apply (Ne g k); right; auto).
    destruct o as [[g k]|].
    2: { destruct (IH Ne' mer queue G If Hv Nq Iq) as (mer' & added & E & G' & Inc & Mem & New & Nd & Len & Max). exists mer', added. repeat (split; [solve [auto]|]). intros g k [X|X]; [discriminate|]. eauto. }
    destruct (count mer g) eqn:C1; [apply count_in in C1|apply count_notin in C1].
    { destruct (IH Ne' mer queue G If Hv Nq Iq) as (mer' & added & E & G' & Inc & Mem & New & Nd & Len & Max). exists mer', added. repeat (split; [solve [auto]|]). intros g' k' [X|X]; [inversion X; subst; auto|]. eauto. }
    destruct (count visited g) eqn:C2; [apply count_in in C2|apply count_notin in C2].
    { destruct (IH Ne' mer queue G If Hv Nq Iq) as (mer' & added & E & G' & Inc & Mem & New & Nd & Len & Max). exists mer', added. repeat (split; [solve [auto]|]).
      intros g' k' [X|X]; [inversion X; subst|eauto]. intros _. destruct (Hv _ C2); auto. }
    destruct (Ne g k (or_introl eq_refl)) as [Nb Lg]. destruct (coplanar_spec seed n p g Plane Lg) as (b & -> & B). cbn [obind]. destruct b.
    + assert (Fc : firmly_coplanar_with m tol seed g) by (apply B; auto).
      assert (G1 : grown (insert g mer)) by (eapply grown_insert; eauto; apply firmly_coplanar; auto).
      destruct (IH Ne' (insert g mer) (queue ++ [g])) as (mer' & added & E & G' & Inc & Mem & New & Nd & Len & Max); auto.
      * apply in_insert; auto.
      * intros x Ix. destruct (Hv x Ix); auto. right. apply in_insert; auto.
      * eapply Permutation_NoDup; [apply Permutation_cons_append|]. constructor; auto.
      * intros x Ix. apply in_insert. apply in_app_iff in Ix. destruct Ix as [Ix|[->|[]]]; auto.
      * exists mer', (g :: added). rewrite <- app_assoc in E. cbn [app] in E. rewrite <- app_assoc in Nd. cbn [app] in Nd.
        repeat (split; [solve [auto]|]). split; [intros x Ix; apply Inc, in_insert; auto|]. split.
        { intro x. rewrite Mem, in_insert. cbn. intuition. }
        split. { intros x [<-|Ix]; auto. intro Im. apply (New x Ix). apply in_insert. auto. }
        split; auto. split; [rewrite Len, insert_length by auto; cbn; lia|].
        intros g' k' [X|X]; [inversion X; subst; left; apply Inc, in_insert; auto|eauto].
    + destruct (IH Ne' mer queue G If Hv Nq Iq) as (mer' & added & E & G' & Inc & Mem & New & Nd & Len & Max). exists mer', added. repeat (split; [solve [auto]|]).
      intros g' k' [X|X] Fc; [inversion X; subst|eauto]. apply B in Fc. discriminate.
Qed.
Lemma visit_loop_spec fuel : forall queue mer visited, grown mer -> NoDup queue -> incl queue mer ->
  (forall x, In x visited <-> In x before \/ (In x mer /\ ~ In x queue)) ->
  (forall f h, In f mer -> ~ In f queue -> neighbours fs f h -> firmly_coplanar_with m tol seed h -> In h mer \/ In h before) ->
  N + 1 + length queue <= fuel + length mer ->
  exists mer' visited', visit_loop fuel m adj n p tol queue mer visited = Ok (mer', visited') /\ grown mer' /\ (forall x, In x visited' <-> In x before \/ In x mer') /\
  (forall f h, In f mer' -> neighbours fs f h -> firmly_coplanar_with m tol seed h -> In h mer' \/ In h before).
Proof.
  induction fuel as [|fuel IH]; intros queue mer visited G Nq Iq Hv Mx L; destruct queue as [|f queue]; cbn [visit_loop].
  - exists mer, visited. split; auto. split; auto. split; [intro x; rewrite Hv; cbn; tauto|intros; eapply Mx; eauto].
  - exfalso. pose proof (bounded_length mer N (gw_nodup mer G) (gw_lt mer G)). cbn in L. lia.
  - exists mer, visited. split; auto. split; auto. split; [intro x; rewrite Hv; cbn; tauto|intros; eapply Mx; eauto].
  - assert (If : In f mer) by (apply Iq; left; auto). pose proof (gw_lt mer G f If) as Lf. destruct (face_valid f Lf) as (_ & _ & L3 & _ & _).
    destruct (a_all fs adj A (f, 0)) as [es F]; [split; cbn; auto; lia|]. cbn [fst] in F. rewrite F. destruct (a_some fs adj A _ _ F) as [_ [Le R]].
    inversion Nq as [|? ? Nf Nq']; subst.
    assert (Ne : forall g k, In (Some (g, k)) es -> neighbours fs f g /\ g < N).
    { intros g k I. apply In_nth_error in I. destruct I as [j Nj]. assert (Lj : j < length es) by (apply nth_error_Some; intro X; unfold face_edge in *; rewrite X in Nj; discriminate).
      pose proof (R j Lj) as Rj. unfold face_edge in *. rewrite Rj in Nj. inversion Nj.
      apply (twin_neighbour f j g k); auto. split; cbn; auto. lia. }
    destruct (edges_loop_spec f visited es) with (mer := mer) (queue := queue) as (mer' & added & E & G' & Inc & Mem & New & Nd & Len & Max); auto.
    { intros x I. apply Hv. auto. }
    { intros x I. apply Hv in I. tauto. }
    { intros x I. apply Iq. right. auto. }
    rewrite E. cbn [obind fst snd]. apply IH; auto.
    + intros x I. apply in_app_iff in I. apply Mem. destruct I as [I|I]; auto. left. apply Iq. right. auto.
    + intro x. rewrite in_insert, Hv, in_app_iff, Mem. cbn [In]. split.
      * intros [->|[I|[I K]]]; auto; right; (split; [auto|]); intros [J|J]; try tauto; apply (New _ J); auto.
      * intros [I|[[I|I] K]]; auto; [|exfalso; auto]. destruct (Nat.eq_dec x f) as [->|D]; auto. right. right. split; auto. intros [J|J]; auto.
    + intros g h I K Nb Fc. rewrite in_app_iff in K. apply Mem in I. destruct I as [I|I]; [|exfalso; auto]. destruct (Nat.eq_dec g f) as [->|D].
      * destruct Nb as (i & j & Gl). pose proof (proj1 (glued_dir fs (f, i) (h, j)) Gl) as (H1 & _). pose proof (twin_some fs _ _ W Gl) as T.
        apply (Max h j); auto. rewrite <- T. eapply nth_error_In. apply R. rewrite Le. apply H1.
      * destruct (Mx g h) as [X|X]; auto. intros [J|J]; auto.
    + rewrite app_length, Len. cbn in L. lia.
Qed.
End Search.

Lemma grown_group before seed mer : grown before seed mer -> (firmly_coplanar_with m tol seed seed -> forall f h, In f mer -> neighbours fs f h -> firmly_coplanar_with m tol seed h -> In h mer \/ In h before) ->
  group_of m tol before seed mer.
Proof. intros [G1 G2 G3 G4 G5 G6] Mx. constructor; auto. Qed.
Lemma aggregate_spec seed visited : seed < N -> ~ In seed visited -> exists mer visited', AggregateAdjacentCoplanarMeshFaces m seed adj tol visited = Ok (mer, visited') /\
  group_of m tol visited seed mer /\ (forall f, In f mer -> f < N) /\ (forall x, In x visited' <-> In x visited \/ In x mer).
Proof.
  intros L Nv. unfold AggregateAdjacentCoplanarMeshFaces. destruct (Nat.ltb_spec seed N); [|lia]. cbn [throw_unless]. assert (T : Qltb 0 tol = true) by (apply Qltb_true; auto). rewrite T. cbn [throw_unless].
  apply count_notin in Nv as Cv. rewrite Cv. cbn [negb throw_unless]. destruct (planar_spec seed L) as (b & n & p & -> & C & B). cbn [obind].
  assert (G0 : grown visited seed [seed]).
  { constructor; [left; auto|repeat constructor; intros []|intros f [<-|[]]; auto|intros f [<-|[]]; auto|intros f [<-|[]]; constructor|intros f [<-|[]]; auto]. }
  destruct b.
  - destruct (visit_loop_spec visited seed n p C (S N) [seed] [seed] visited) as (mer & vis & E & G & Hv & Mx); auto.
    + repeat constructor. intros [].
    + apply incl_refl.
    + intro x. cbn. intuition.
    + intros f h [<-|[]] K. exfalso. apply K. left. auto.
    + cbn. lia.
    + exists mer, vis. split; auto. split; [apply grown_group; auto|]. split; [apply G|auto].
  - exists [seed], (insert seed visited). split; auto. split; [apply grown_group; auto; intro Fc; specialize (B Fc); discriminate|]. split; [intros f [<-|[]]; auto|].
    intro x. rewrite in_insert. cbn. intuition.
Qed.
End Groups.
