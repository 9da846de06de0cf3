(** C48, C49: simplification of polylines and meshes. *)
From Coq Require Import List QArith Lqa Bool Arith Lia Permutation.
From Verif Require Import Base Maps Mesh_Model Mesh_Spec Mesh_Proofs Mesh_Props Simplify_Model Simplify_Spec Simplify_Proofs Simplify_Proofs2 Simplify_Proofs3 Simplify_Proofs4 Simplify_Proofs5.
Import ListNotations.
Local Open Scope nat_scope.

(** * C48 *)
(** On any polyline, of elements with positions [pos], the simplification returns the
    first element, the last one and some between, in order; an element dropped between two
    kept ones is within the tolerance of the line through them, or these two coincide. *)
Theorem douglas_peucker_keeps_shape {E} (pos : E -> vec) tol l : (0 <= tol)%Q -> l <> [] ->
  exists out, ApplyDouglasPeuckerSimplification pos tol l = Ok out /\
  covered (fun x y mid => forall e, In e mid -> within tol (pos x) (pos y) (pos e) \/ same (pos x) (pos y)) l out.
Proof. intros T N. apply dp_covered; auto. Qed.
Print Assumptions douglas_peucker_keeps_shape.

Lemma covered_distinct {E} (P : E -> E -> Prop) (ok : E -> E -> E -> Prop) l out : covered (fun x y mid => forall e, In e mid -> ok x y e \/ P x y) l out ->
  ForallOrdPairs (fun x y => ~ P x y) l -> covered (fun x y mid => forall e, In e mid -> ok x y e) l out.
Proof.
  induction 1 as [x|x y mid l out H C IH]; intro D; [constructor|]. inversion D as [|? ? D1 D2]; subst. constructor.
  - intros e I. destruct (H e I); auto. exfalso. rewrite Forall_forall in D1. apply (D1 y); auto. apply in_app_iff. right. left. auto.
  - apply IH. clear - D2. induction mid as [|z mid IH]; auto. inversion D2; subst. auto.
Qed.
(** The full property, for polylines that never pass the same point twice. *)
Theorem douglas_peucker_within_tolerance_partial {E} (pos : E -> vec) tol l : (0 <= tol)%Q -> l <> [] -> ForallOrdPairs (fun x y => ~ same (pos x) (pos y)) l ->
  exists out, ApplyDouglasPeuckerSimplification pos tol l = Ok out /\ covered (fun x y mid => forall e, In e mid -> within tol (pos x) (pos y) (pos e)) l out.
Proof.
  intros T N D. destruct (dp_covered pos (length l) tol l T N (le_n _)) as (out & E0 & C). exists out. split; auto.
  apply (covered_distinct (fun x y => same (pos x) (pos y)) (fun x y e => within tol (pos x) (pos y) (pos e))); auto.
Qed.
Print Assumptions douglas_peucker_within_tolerance_partial.
Definition zigzag : list vec := [(0, 0, 0); (1, 1 # 100, 0); (2, 0, 0); (3, 5, 0); (4, 6, 0); (5, 7, 0); (6, 8, 0); (7, 9, 0)]%Q.
Example zigzag_simplified : ForallOrdPairs (fun x y => ~ same x y) zigzag /\
  ApplyDouglasPeuckerSimplification (fun v => v) (1 # 10) zigzag = Ok [(0, 0, 0); (2, 0, 0); (3, 5, 0); (7, 9, 0)]%Q.
Proof. split; [|reflexivity]. unfold zigzag. repeat (constructor; [repeat (constructor; [intros (A & _); vm_compute in A; discriminate|]); constructor|]). constructor. Qed.

(** A closed polyline loses everything, however large: the line through its two ends has
    no direction. *)
Theorem douglas_peucker_closed_refuted : exists (tol : Q) (l : list vec) e, (0 < tol)%Q /\ In e l /\
  ApplyDouglasPeuckerSimplification (fun v => v) tol l = Ok [(0, 0, 0); (0, 0, 0)]%Q /\ ~ within tol (0, 0, 0)%Q (0, 0, 0)%Q e.
Proof.
  exists 1%Q, [(0, 0, 0); (1000, 0, 0); (1000, 1000, 0); (0, 0, 0)]%Q, (1000, 0, 0)%Q. split; [reflexivity|]. split; [cbn; auto|]. split; [reflexivity|].
  intros [t H]. unfold dist2, on_line, vx, vy, vz in H. cbn [fst snd] in H.
  setoid_replace ((1000 - (0 + t * (0 - 0))) * (1000 - (0 + t * (0 - 0))) + (0 - (0 + t * (0 - 0))) * (0 - (0 + t * (0 - 0))) + (0 - (0 + t * (0 - 0))) * (0 - (0 + t * (0 - 0))))%Q with 1000000%Q in H by ring.
  apply H. reflexivity.
Qed.
Print Assumptions douglas_peucker_closed_refuted.
(** The distance is to the line, not to the segment: a spike beyond the ends vanishes. *)
Theorem douglas_peucker_segment_refuted : exists (tol : Q) (l : list vec) e, (0 < tol)%Q /\ In e l /\
  ApplyDouglasPeuckerSimplification (fun v => v) tol l = Ok [(0, 0, 0); (1, 0, 0)]%Q /\ ~ within_segment tol (0, 0, 0)%Q (1, 0, 0)%Q e.
Proof.
  exists 1%Q, [(0, 0, 0); (1000, 0, 0); (1, 0, 0)]%Q, (1000, 0, 0)%Q. split; [reflexivity|]. split; [cbn; auto|]. split; [reflexivity|].
  intros (t & [T0 T1] & H). unfold dist2, on_line, vx, vy, vz in H. cbn [fst snd] in H.
  setoid_replace ((1000 - (0 + t * (1 - 0))) * (1000 - (0 + t * (1 - 0))) + (0 - (0 + t * (0 - 0))) * (0 - (0 + t * (0 - 0))) + (0 - (0 + t * (0 - 0))) * (0 - (0 + t * (0 - 0))))%Q with ((1000 - t) * (1000 - t))%Q in H by ring.
  nra.
Qed.
Print Assumptions douglas_peucker_segment_refuted.
(** A vertex on the straight line between its kept neighbours may be kept: the second half
    starts after the farthest vertex. *)
Theorem douglas_peucker_minimal_refuted : exists (tol : Q) (l out : list vec), (0 < tol)%Q /\
  ApplyDouglasPeuckerSimplification (fun v => v) tol l = Ok out /\ exists a b c, In b out /\ out = [(0, 0, 0)%Q; a; b; c] /\ within_segment 0 a c b.
Proof.
  exists 1%Q, [(0, 0, 0); (5, 5, 0); (6, 4, 0); (7, 3, 0); (10, 0, 0)]%Q, [(0, 0, 0); (5, 5, 0); (6, 4, 0); (10, 0, 0)]%Q. split; [reflexivity|]. split; [reflexivity|].
  exists (5, 5, 0)%Q, (6, 4, 0)%Q, (10, 0, 0)%Q. split; [cbn; auto|]. split; auto. exists (1 # 5)%Q. split; [split; vm_compute; discriminate|]. vm_compute. discriminate.
Qed.
Print Assumptions douglas_peucker_minimal_refuted.

(** * C49 *)
(** A mesh whose edges are never repeated in the same direction is simplified to one face
    per group, unless some group has no outer edge, when the call aborts.  The groups
    partition the faces; each is edge connected, coplanar with its seed (the least face
    not taken before) and maximal; its face is a closed walk along outer edges of the
    group, simplified.  The contour traversal always ends: there is no third outcome. *)
Theorem simplify_partitions_faces order m given0 tol : built m given0 -> (forall l, Permutation l (order l)) -> Forall (fun f => 3 <= length f) (mfaces m) ->
  (forall nv, In nv (ivector (mnormals m)) -> ~ (dot nv nv == 0)%Q) -> (0 < tol)%Q -> well_oriented (mfaces m) ->
  (exists out groups given, SimplifyMeshFaces order m tol = Ok (out, groups) /\ built out given /\ Forall2 (merged m tol) groups given /\
     grouping m tol groups /\ Permutation (concat groups) (seq 0 (length (mfaces m)))) \/
  (SimplifyMeshFaces order m tol = Throw /\ exists groups g, grouping m tol (groups ++ [g]) /\ forall h, ~ outer (mfaces m) g h).
Proof. intros B P T Nm L W. destruct (simplify_spec order m given0 tol B P T Nm L) as [[_ X]|[[_ X]|[X _]]]; auto. contradiction. Qed.
Print Assumptions simplify_partitions_faces.
(** A directed edge used twice aborts the call. *)
Theorem simplify_rejects_repeated_edges order m tol : (forall l, Permutation l (order l)) -> ~ well_oriented (mfaces m) -> SimplifyMeshFaces order m tol = Throw.
Proof. intros P W. unfold SimplifyMeshFaces. destruct (adjacency_spec order (mfaces m) P) as [[X _]|[_ ->]]; [contradiction|auto]. Qed.
Print Assumptions simplify_rejects_repeated_edges.

Fixpoint push_all (fs : list geo_face) (m : geo_mesh) : geo_mesh := match fs with [] => m | f :: fs' => match PushFace f m with Ok m' => push_all fs' m' | _ => m end end.
Definition flat (ps : list (Q * Q)) : geo_face := mk_face (map (fun p => (fst p, snd p, 0%Q)) ps) (map (fun _ => (0, 0, 1)%Q) ps).
Definition quad (x y : Q) : geo_face := flat [(x, y); (x + 1, y); (x + 1, y + 1); (x, y + 1)]%Q.
Lemma push_all_built fs m given : built m given -> exists given', built (push_all fs m) given'.
Proof. revert m given. induction fs as [|f fs IH]; intros m given B; cbn; eauto. destruct (PushFace f m) eqn:E; eauto. eapply IH. eapply built_push; eauto. Qed.
(** An L of three quads and a vertical wall: two groups. *)
Definition wall : geo_face := mk_face [(2, 1, 0); (2, 0, 0); (2, 0, 1); (2, 1, 1)]%Q (map (fun _ => (1, 0, 0)%Q) [0; 0; 0; 0]).
Definition corner_mesh : geo_mesh := Eval vm_compute in push_all [quad 0 0; quad 1 0; wall; quad 1 1] GeoMesh.
Example corner_mesh_simplified : (exists given, built corner_mesh given) /\ Forall (fun f => 3 <= length f) (mfaces corner_mesh) /\
  (forall nv, In nv (ivector (mnormals corner_mesh)) -> ~ (dot nv nv == 0)%Q) /\
  exists out, SimplifyMeshFaces (@rev _) corner_mesh (1 # 1000) = Ok (out, [[0; 1; 3]; [2]]) /\ map (@length _) (mfaces out) = [7; 4].
Proof.
  split; [change corner_mesh with (push_all [quad 0 0; quad 1 0; wall; quad 1 1] GeoMesh); eapply push_all_built; constructor|].
  split; [repeat constructor|]. split; [intros nv [<-|[<-|[]]]; vm_compute; discriminate|]. eexists. split; vm_compute; reflexivity.
Qed.

(** Two triangles back to back: all edges are glued inside the group, and the call aborts. *)
Definition folded : geo_mesh := Eval vm_compute in push_all [flat [(0, 0); (1, 0); (0, 1)]%Q; flat [(1, 0); (0, 0); (0, 1)]%Q] GeoMesh.
Theorem simplify_closed_group_refuted : exists m tol given, built m given /\ Forall (fun f => 3 <= length f) (mfaces m) /\ (forall nv, In nv (ivector (mnormals m)) -> (dot nv nv == 1)%Q) /\
  well_oriented (mfaces m) /\ (0 < tol)%Q /\ forall order, (forall l, Permutation l (order l)) -> SimplifyMeshFaces order m tol = Throw.
Proof.
  assert (X : exists given, built folded given) by (change folded with (push_all [flat [(0, 0); (1, 0); (0, 1)]%Q; flat [(1, 0); (0, 0); (0, 1)]%Q] GeoMesh); eapply push_all_built; constructor).
  destruct X as [given B]. exists folded, 1%Q, given. assert (T : Forall (fun f => 3 <= length f) (mfaces folded)) by repeat constructor.
  assert (Nv : forall nv, In nv (ivector (mnormals folded)) -> (dot nv nv == 1)%Q) by (intros nv [<-|[]]; reflexivity).
  assert (W : well_oriented (mfaces folded)).
  { destruct (adjacency_spec (fun l => l) (mfaces folded) (fun l => Permutation_refl l)) as [[W _]|[_ E]]; auto. vm_compute in E. discriminate. }
  repeat (split; [solve [auto]|]). split; [reflexivity|]. intros order Po.
  destruct (simplify_partitions_faces order folded given 1%Q) as [(out & groups & gs & E & _ & F & G & Pm)|[E _]]; auto.
  { intros nv I Z. rewrite (Nv nv I) in Z. discriminate. } { reflexivity. }
  exfalso. destruct (adjacency_spec order (mfaces folded) Po) as [(_ & adj & Ea & A)|[NW _]]; [|contradiction].
  assert (Seeds : exists g rest, groups = g :: rest /\ In 0 g).
  { destruct groups as [|g rest]; [apply Permutation_nil in Pm; discriminate|]. exists g, rest. split; auto. destruct G as (_ & _ & G). destruct (G [] g rest eq_refl) as (seed & Lt & Gr).
    destruct seed as [|seed]; [apply Gr|]. destruct (Lt 0); lia. }
  destruct Seeds as (g & rest & -> & I0). destruct G as (Gn & Gl & G). destruct (G [] g rest eq_refl) as (seed & Lt & Gr).
  assert (seed = 0) as -> by (destruct seed as [|seed]; auto; destruct (Lt 0); lia).
  assert (C0 : forall k, k < 2 -> firmly_coplanar_with folded 1 0 k).
  { intros k Lk. exists ((0, 0, 0), (0, 0, 1))%Q. split; [exists [(0, 0); (1, 0); (2, 0)], (0, 0); repeat split|].
    intros j c (f & d & E1 & E2 & E3 & E4). cbn [fst snd] in *.
    assert (Hc : snd c = (0, 0, 1)%Q /\ exists x y, fst c = (x, y, 0)%Q).
    { destruct k as [|[|k]]; [| |lia]; cbn in E1; inversion E1; subst f; destruct j as [|[|[|j]]]; cbn in E2; try (destruct j; discriminate); inversion E2; subst d; cbn in E3, E4; inversion E3; inversion E4; split; eauto. }
    destruct c as [q nv]. cbn [fst snd] in Hc. destruct Hc as [-> (x & y & ->)]. split; [|vm_compute; discriminate]. exists 0%Q. unfold dot, vx, vy, vz. cbn [fst snd]. split; [ring|reflexivity]. }
  assert (I1 : In 1 g).
  { destruct (gr_maximal _ _ _ _ _ Gr (C0 0 ltac:(lia)) 0 1 I0) as [|[]]; auto.
    exists 0, 0. exists 0, 1. split; [exists [(0, 0); (1, 0); (2, 0)]|exists [(1, 0); (0, 0); (2, 0)]]; (split; [reflexivity|]); eexists _, _; repeat split. }
  inversion F as [|? f0 ? ? (contour & kept & (Ne & _ & O & _) & _) _]; subst. destruct contour as [|h contour]; [congruence|]. destruct (O h (or_introl eq_refl)) as (Ih & (a & b & (f & Nf & Sf)) & No).
  assert (GL : exists k, glued (mfaces folded) h k /\ fst k < 2).
  { destruct h as [[|[|i]] j]; cbn [fst snd] in *; [| |destruct i; discriminate]; cbn in Nf; inversion Nf; subst f; destruct Sf as (ca & cb & Na & _ & _); destruct j as [|[|[|j]]]; try (destruct j; discriminate).
    - exists (1, 0). split; [|cbn; lia]. exists 0, 1. split; eexists; (split; [reflexivity|]); eexists _, _; repeat split.
    - exists (1, 2). split; [|cbn; lia]. exists 1, 2. split; eexists; (split; [reflexivity|]); eexists _, _; repeat split.
    - exists (1, 1). split; [|cbn; lia]. exists 2, 0. split; eexists; (split; [reflexivity|]); eexists _, _; repeat split.
    - exists (0, 0). split; [|cbn; lia]. exists 1, 0. split; eexists; (split; [reflexivity|]); eexists _, _; repeat split.
    - exists (0, 2). split; [|cbn; lia]. exists 0, 2. split; eexists; (split; [reflexivity|]); eexists _, _; repeat split.
    - exists (0, 1). split; [|cbn; lia]. exists 2, 1. split; eexists; (split; [reflexivity|]); eexists _, _; repeat split. }
  destruct GL as (k & Gk & Lk). apply (No k Gk). destruct (fst k) as [|[|z]]; auto. lia.
Qed.
Print Assumptions simplify_closed_group_refuted.

(** A ring of eight quads around a hole: the hole is filled, its corners are gone. *)
Definition holed : geo_mesh := Eval vm_compute in push_all [quad 0 0; quad 1 0; quad 2 0; quad 0 1; quad 2 1; quad 0 2; quad 1 2; quad 2 2] GeoMesh.
Theorem simplify_hole_refuted : exists m tol out given, built m given /\ (0 < tol)%Q /\ SimplifyMeshFaces (fun l => l) m tol = Ok (out, [[0; 1; 2; 3; 4; 5; 6; 7]]) /\
  length (mfaces m) = 8 /\ length (mfaces out) = 1 /\
  exists h p, outer (mfaces m) [0; 1; 2; 3; 4; 5; 6; 7] h /\ corner_at m h p /\ same (fst p) (2, 1, 0)%Q /\ forall v, In v (ivector (mvertices out)) -> ~ same v (fst p).
Proof.
  assert (X : exists given, built holed given) by (change holed with (push_all [quad 0 0; quad 1 0; quad 2 0; quad 0 1; quad 2 1; quad 0 2; quad 1 2; quad 2 2] GeoMesh); eapply push_all_built; constructor).
  destruct X as [given B]. exists holed, (1 # 1000)%Q. eexists. exists given. split; auto. split; [reflexivity|]. split; [vm_compute; reflexivity|]. split; [reflexivity|]. split; [reflexivity|].
  exists (1, 2), ((2, 1, 0), (0, 0, 1))%Q. split; [|split; [|split]].
  - split; [cbn; auto|]. split; [exists 5, 2; eexists; split; [reflexivity|]; eexists _, _; repeat split|].
    assert (Hh : half (mfaces holed) (1, 2)) by (split; vm_compute; lia). pose proof (twin_spec (mfaces holed) (1, 2) Hh) as T. assert (twin (mfaces holed) (1, 2) = None) as Et by (vm_compute; reflexivity). rewrite Et in T.
    intros k G. exfalso. apply (T k G).
  - eexists _, _. repeat split.
  - repeat split; reflexivity.
  - intros v I (X & Y & _). cbn in I. repeat (destruct I as [<-|I]; [vm_compute in X; vm_compute in Y; discriminate|]). destruct I.
Qed.
Print Assumptions simplify_hole_refuted.

(** Four corners of a thin strip are simplified to a "face" with two vertices. *)
Definition strip : geo_mesh := Eval vm_compute in push_all [flat [(100, 0); (100, 1 # 100); (0, 1 # 100); (0, 0)]%Q] GeoMesh.
Theorem simplify_degenerate_face_refuted : exists m tol out given, built m given /\ (0 < tol < 1)%Q /\ Forall (fun f => length f = 4) (mfaces m) /\ SimplifyMeshFaces (fun l => l) m tol = Ok (out, [[0]]) /\
  Forall (fun f => length f = 2) (mfaces out).
Proof.
  assert (X : exists given, built strip given) by (change strip with (push_all [flat [(100, 0); (100, 1 # 100); (0, 1 # 100); (0, 0)]%Q] GeoMesh); eapply push_all_built; constructor).
  destruct X as [given B]. exists strip, (1 # 10)%Q. eexists. exists given. split; auto. split; [split; reflexivity|]. split; [repeat constructor|]. split; [vm_compute; reflexivity|repeat constructor].
Qed.
Print Assumptions simplify_degenerate_face_refuted.

(** Normals that are not of length one scale the tolerance: with normals a hundred long, a
    ramp that rises half a metre is merged with a tolerance of one centimetre. *)
Definition ramp : geo_face := mk_face [(1, 0, 0); (2, 0, 1 # 2); (2, 1, 1 # 2); (1, 1, 0)]%Q (map (fun _ => (0, 0, 100)%Q) [0; 0; 0; 0]).
Definition ground : geo_face := mk_face [(0, 0, 0); (1, 0, 0); (1, 1, 0); (0, 1, 0)]%Q (map (fun _ => (0, 0, 100)%Q) [0; 0; 0; 0]).
Definition scaled : geo_mesh := Eval vm_compute in push_all [ground; ramp] GeoMesh.
Theorem simplify_scaled_tolerance_refuted : exists m tol out given, built m given /\ (0 < tol < 1 # 10)%Q /\ SimplifyMeshFaces (fun l => l) m tol = Ok (out, [[0; 1]]) /\
  exists p c, corner_at m (0, 0) p /\ corner_at m (1, 1) c /\ forall t, (dot (snd p) (fst c) + t * dot (snd p) (snd c) == dot (snd p) (fst p) -> 2500 * (tol * tol) <= t * t * dot (snd c) (snd c))%Q.
Proof.
  assert (X : exists given, built scaled given) by (change scaled with (push_all [ground; ramp] GeoMesh); eapply push_all_built; constructor).
  destruct X as [given B]. exists scaled, (1 # 100)%Q. eexists. exists given. split; auto. split; [split; reflexivity|]. split; [vm_compute; reflexivity|].
  exists ((0, 0, 0), (0, 0, 100))%Q, ((2, 0, 1 # 2), (0, 0, 100))%Q. split; [eexists _, _; repeat split|]. split; [eexists _, _; repeat split|].
  intros t E. unfold dot, vx, vy, vz in *. cbn [fst snd] in *. assert (T : (t == - 1 # 200)%Q) by lra. rewrite T. vm_compute. discriminate.
Qed.
Print Assumptions simplify_scaled_tolerance_refuted.
