(** C46, C47: meshes and their OBJ files. *)
From Coq Require Import List QArith Bool String Lia Arith.
From Verif Require Import Base Maps Mesh_Model Mesh_Spec Mesh_Proofs.
Import ListNotations.
Local Open Scope nat_scope.

(** ** C46 *)
(** Faces made by the constructor or by push_vn can always be pushed, and the faces of a
    mesh can always be added to another one: no index is ever out of range. *)
Theorem mesh_operations_succeed :
  (forall vs ns f m, GeoFace vs ns = Ok f -> exists m', PushFace f m = Ok m') /\
  (forall f v n m, (exists m', PushFace f m = Ok m') -> List.length (gvertices f) = List.length (gnormals f) -> exists m', PushFace (push_vn v n f) m = Ok m') /\
  (forall o gs m, built o gs -> exists m', AddFacesFrom o m = Ok m').
Proof.
  split; [|split].
  - intros vs ns f m G. unfold GeoFace in G. destruct (Nat.eqb_spec (List.length vs) (List.length ns)) as [E|E]; cbn in G; inversion G; subst. unfold PushFace. cbn.
    destruct (push_corners_ok vs ns m []) as [r ->]; [lia|]. cbn. eauto.
  - intros f v n m _ E. unfold PushFace. destruct (push_corners_ok (gvertices (push_vn v n f)) (gnormals (push_vn v n f)) m []) as [r ->]; [cbn; rewrite !app_length; cbn; lia|]. cbn. eauto.
  - intros o gs m B. apply add_faces_ok. eapply built_valid; eauto.
Qed.
Print Assumptions mesh_operations_succeed.

(** The stored faces stand for the faces that were put in, in order. *)
Theorem mesh_round_trip m fs : built m fs ->
  Forall2 (fun given stored => exists ps, stands_for m stored ps /\ Forall2 same_corner given ps) fs (mfaces m).
Proof. intro B. apply (built_inv m fs B). Qed.
Print Assumptions mesh_round_trip.

(** Equal vertices share one index and different ones do not; same for normals. *)
Theorem mesh_indices_unique m fs : built m fs ->
  (forall i j x y, nth_error (ivector (mvertices m)) i = Some x -> nth_error (ivector (mvertices m)) j = Some y -> (same x y <-> i = j)) /\
  (forall i j x y, nth_error (ivector (mnormals m)) i = Some x -> nth_error (ivector (mnormals m)) j = Some y -> (same x y <-> i = j)).
Proof.
  intro B. destruct (built_inv m fs B) as ([V N] & _). split; intros i j x y A C; (split; [intro Sm; first [eapply (i_one _ V); eauto; fail|eapply (i_one _ N); eauto]|intros <-; assert (x = y) by congruence; subst; apply same_refl]).
Qed.
Print Assumptions mesh_indices_unique.

(** Indices are stable: later additions keep the vertices, normals and faces already there. *)
Theorem mesh_indices_stable m fs m' : built m fs -> (exists f, PushFace f m = Ok m') \/ (exists o gs, built o gs /\ AddFacesFrom o m = Ok m') ->
  (forall i v, nth_error (ivector (mvertices m)) i = Some v -> nth_error (ivector (mvertices m')) i = Some v) /\
  (forall i n, nth_error (ivector (mnormals m)) i = Some n -> nth_error (ivector (mnormals m')) i = Some n) /\
  (forall i f, nth_error (mfaces m) i = Some f -> nth_error (mfaces m') i = Some f).
Proof.
  intros B H. destruct (built_inv m fs B) as (V & M & _).
  assert (G : grows m m').
  { destruct H as [[f P]|(o & gs & O & P)]; [apply (push_face_spec f m m' V P)|]. destruct (built_inv o gs O) as (_ & Mo & _). eapply (add_faces_spec o (mfaces o) m gs m' fs); eauto. }
  destruct G as [A C D]. split; [|split]; intros i x N; eapply ext_nth; eauto.
Qed.
Print Assumptions mesh_indices_stable.

(** No vertex or normal is invented. *)
Theorem mesh_vertices_were_given m fs : built m fs ->
  (forall v, In v (ivector (mvertices m)) -> exists f n, In f fs /\ In (v, n) f) /\
  (forall n, In n (ivector (mnormals m)) -> exists f v, In f fs /\ In (v, n) f).
Proof. intro B. apply (built_inv m fs B). Qed.
Print Assumptions mesh_vertices_were_given.

Definition pt (x y : Z) : vec := (inject_Z x, inject_Z y, 0%Q).
Definition up : vec := (0%Q, 0%Q, 1%Q).
(** Two quads with a common edge: six vertices, one normal. *)
Definition left_quad := mk_face [pt 0 0; pt 1 0; pt 1 1; pt 0 1] [up; up; up; up].
Definition right_quad := mk_face [pt 1 0; pt 2 0; pt 2 1; pt 1 1] [up; up; up; up].
Definition two_quads : geo_mesh := Eval vm_compute in
  match obind (PushFace left_quad GeoMesh) (PushFace right_quad) with Ok m => m | _ => GeoMesh end.
Example two_quads_built : built two_quads [corners left_quad; corners right_quad] /\
  mfaces two_quads = [[(0, 0); (1, 0); (2, 0); (3, 0)]; [(1, 0); (4, 0); (5, 0); (2, 0)]] /\ List.length (ivector (mvertices two_quads)) = 6.
Proof.
  split; [|vm_compute; auto]. change [corners left_quad; corners right_quad] with ([corners left_quad] ++ [corners right_quad]).
  destruct (PushFace left_quad GeoMesh) as [m| |] eqn:E; try discriminate. apply (built_push m).
  - change [corners left_quad] with ([] ++ [corners left_quad]). eapply built_push; [apply built_new|exact E].
  - vm_compute in E. inversion E; subst. reflexivity.
Qed.

(** ** C47 *)
Definition faces_wanted (ms : list (geo_mesh * list (list (vec * vec)))) : list (list (vec * vec)) := flat_map snd ms.
Lemma nth_error_mid {A} (a b c : list A) i x : nth_error b i = Some x -> nth_error (a ++ b ++ c) (i + List.length a) = Some x.
Proof. intro N. rewrite nth_error_app2 by lia. replace (i + List.length a - List.length a) with i by lia. rewrite nth_error_app1; auto. apply nth_error_Some. congruence. Qed.
Lemma line_mid {A B} (f : A -> B) (a c : list B) (l : list A) i v k : k = List.length a -> nth_error l i = Some v -> line_at (a ++ map f l ++ c) (i + 1 + k) (f v).
Proof. intros -> N. split; [lia|]. replace (i + 1 + List.length a - 1) with (i + List.length a) by lia. apply nth_error_mid. apply map_nth_error. auto. Qed.
Lemma chain_refers {num} (to_str : Q -> num) origin ms : Forall (fun x => built (fst (fst x)) (snd x)) ms ->
  forall pre cur voff noff, voff = List.length (obj_vertices pre) -> noff = List.length (obj_normals pre) ->
  Forall2 (refers to_str origin (pre ++ emit_chain to_str (map fst ms) origin voff noff)) (flat_map snd ms) (map snd (obj_faces cur (emit_chain to_str (map fst ms) origin voff noff))).
Proof.
  induction 1 as [|[[m mat] fs] ms B F IH]; intros pre cur voff noff Ev En; [constructor|]. cbn [map fst snd flat_map emit_chain] in *.
  destruct (EmitObj to_str m mat origin voff noff) as [out [v' n']] eqn:E. destruct (built_inv m fs B) as (V & M & _).
  destruct (mfaces m) as [|f0 fl] eqn:Fm.
  - rewrite (emit_empty to_str m mat origin voff noff Fm) in E. inversion E; subst. inversion M; subst. cbn [app]. apply IH; auto.
  - destruct (emit_spec to_str m mat origin voff noff out v' n' E) as (Ov & On & Hv & Hn & Hf); [congruence|].
    rewrite Hf, map_app. apply Forall2_app.
    + rewrite map_map. cbn [snd].
      assert (R : forall given f, means m given f -> refers to_str origin (pre ++ out ++ emit_chain to_str (map fst ms) origin v' n') given (shift voff noff f)).
      { intros given f (ps & Z & Sm). unfold refers. rewrite !obj_vertices_app, !obj_normals_app, Ov, On. clear - Z Sm Ev En. revert given Sm. induction Z as [|c p f ps [C D] Z IH]; intros given Sm; inversion Sm as [|g q given' qs [S1 S2] Sm']; subst; constructor; auto.
        exists (fst p), (snd p). split; auto. split; auto. cbn [fst snd shift].
        change (vertex_line to_str origin) with (out_v to_str origin). change (normal_line to_str) with (out_n to_str). split; apply line_mid; auto. }
      clear - M R Fm. rewrite Fm. revert M. generalize (f0 :: fl) as l. clear Fm. intros l M. induction M; cbn; constructor; auto.
    + rewrite app_assoc. apply IH.
      * rewrite obj_vertices_app, Ov, app_length, map_length. lia.
      * rewrite obj_normals_app, On, app_length, map_length. lia.
Qed.
(** In the OBJ file of any list of meshes, the face lines are, in order, the faces of the
    meshes, and their indices refer to the lines written for their vertices and normals. *)
Theorem obj_faces_refer_to_their_vertices {num} (to_str : Q -> num) origin (ms : list (geo_mesh * string * list (list (vec * vec)))) :
  Forall (fun x => built (fst (fst x)) (snd x)) ms ->
  Forall2 (refers to_str origin (obj_file to_str (map fst ms) origin)) (flat_map snd ms) (map snd (obj_faces "" (obj_file to_str (map fst ms) origin))).
Proof.
  intro F. pose proof (chain_refers to_str origin ms F [LOther "# GENERATED BY maliput::utility::GenerateObjFile()"; LOther "mtllib"] "" 0 0 eq_refl eq_refl) as H. exact H.
Qed.
Print Assumptions obj_faces_refer_to_their_vertices.

Lemma chain_materials {num} (to_str : Q -> num) origin ms : (forall x, In x ms -> snd x <> ""%string) ->
  forall cur voff noff, map fst (obj_faces cur (emit_chain to_str ms origin voff noff)) = flat_map (fun x => map (fun _ => snd x) (mfaces (fst x))) ms.
Proof.
  induction ms as [|[m mat] ms IH]; intros N cur voff noff; auto. cbn [emit_chain flat_map fst snd].
  destruct (EmitObj to_str m mat origin voff noff) as [out [v' n']] eqn:E. destruct (mfaces m) as [|f0 fl] eqn:Fm.
  - rewrite (emit_empty to_str m mat origin voff noff Fm) in E. inversion E; subst. cbn [app map]. apply IH. intros x I. apply N. right. auto.
  - destruct (emit_spec to_str m mat origin voff noff out v' n' E) as (_ & _ & _ & _ & Hf); [congruence|]. rewrite Hf, map_app, map_map. cbn [fst].
    assert (X : String.eqb mat "" = false) by (apply String.eqb_neq; apply (N (m, mat)); left; auto). rewrite X, Fm. f_equal. apply IH. intros x I. apply N. right. auto.
Qed.
(** Each face line is under the material of its mesh, if all materials have names; faces
    under an empty name are drawn with the material of the mesh before. *)
Theorem obj_faces_have_their_material {num} (to_str : Q -> num) origin ms : (forall x, In x ms -> snd x <> ""%string) ->
  map fst (obj_faces "" (obj_file to_str ms origin)) = flat_map (fun x => map (fun _ => snd x) (mfaces (fst x))) ms.
Proof. intro N. unfold obj_file. cbn [app obj_faces]. apply chain_materials. auto. Qed.
Print Assumptions obj_faces_have_their_material.

(** The same mesh twice: the second copy refers to its own lines. *)
Example two_meshes_obj : exists v n v' n',
  map snd (obj_faces "" (obj_file (fun q => q) [(two_quads, "asphalt"%string); (GeoMesh, "lane"%string); (two_quads, "marker"%string)] (pt 1 0))) =
  [[(1, 1); (2, 1); (3, 1); (4, 1)]; [(2, 1); (5, 1); (6, 1); (3, 1)]; [(v, n); (8, 2); (9, 2); (10, 2)]; [(8, 2); (11, 2); (v', n'); (9, 2)]] /\ v = 7 /\ n = 2 /\ v' = 12 /\ n' = 2.
Proof. exists 7, 2, 12, 2. split; [reflexivity|auto]. Qed.
