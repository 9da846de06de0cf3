(** Model of include/maliput/utility/mesh_simplification.h and
    src/maliput/utility/mesh_simplification.cc.
    Distances are compared by their squares, which are rational; a NaN (division by a
    zero norm) is [None], and compares as false.  MALIPUT_DEMAND and container at() are
    [Throw].  A loop that runs out of fuel is [UB]; the theorems exclude it. *)
From Coq Require Import List QArith Bool Arith.
From Verif Require Import Base Maps Mesh_Model.
Import ListNotations.
Local Open Scope nat_scope.

(** math::Vector3 arithmetic. *)
Definition vsub (a b : vec) : vec := (vx a - vx b, vy a - vy b, vz a - vz b)%Q.
Definition vdot (a b : vec) : Q := (vx a * vx b + vy a * vy b + vz a * vz b)%Q.

(** Square of DistanceToALine(p, r, q), mesh_simplification.cc 47-50; NaN if r is zero. *)
Definition DistanceToALine (p r q : vec) : option Q :=
  if Qeq_bool (vdot r r) 0 then None
  else Some (let d := vsub q p in vdot d d - vdot r d * vdot r d / vdot r r)%Q.
(** a < b and a > tolerance for distances given by their squares. *)
Definition dlt (a b : option Q) : bool := match a, b with Some x, Some y => Qltb x y | _, _ => false end.
Definition dgt (a : option Q) (tol : Q) : bool := match a with Some x => Qltb tol 0 || Qltb (tol * tol) x | None => false end.

Section DP.
Context {E : Type}.
Variable to_vertex : E -> vec.
(** The edge through [a] and [b] of mesh_simplification.cc 219-221. *)
Definition line_distance (a b e : E) : option Q := DistanceToALine (to_vertex a) (vsub (to_vertex b) (to_vertex a)) (to_vertex e).
(** std::max_element, mesh_simplification.h 299-302: position of the first greatest. *)
Fixpoint max_element (a b : E) (best : E) (at_ i : nat) (l : list E) : nat :=
  match l with
  | [] => at_
  | x :: l' => if dlt (line_distance a b best) (line_distance a b x) then max_element a b x i (S i) l' else max_element a b best at_ (S i) l'
  end.
(** ApplyDouglasPeuckerSimplification, mesh_simplification.h 290-310, on the elements
    from first to last inclusive. *)
Fixpoint douglas_peucker (fuel : nat) (tol : Q) (l : list E) : outcome (list E) :=
  match fuel with
  | O => UB
  | S fuel' =>
      match l with
      | [] => UB
      | [x] => Ok [x]
      | first :: l' =>
          let last_ := last l' first in
          let k := max_element first last_ first 0 1 (removelast l') in
          if dgt (line_distance first last_ (nth k l first)) tol
          then obind (douglas_peucker fuel' tol (firstn (S k) l)) (fun out1 =>
               obind (douglas_peucker fuel' tol (skipn (S k) l)) (fun out2 => Ok (out1 ++ out2)))
          else Ok [first; last_]
      end
  end.
Definition ApplyDouglasPeuckerSimplification (tol : Q) (l : list E) : outcome (list E) := douglas_peucker (length l) tol l.
End DP.

(** DirectedEdgeIndex, mesh_simplification.h 71-83. *)
Definition edge := (nat * nat)%type.
Definition edge_eqb (a b : edge) : bool := Nat.eqb (fst a) (fst b) && Nat.eqb (snd a) (snd b).
Definition reverse (e : edge) : edge := (snd e, fst e).
(** FaceEdgeIndex, mesh_simplification.h 96-110; [None] is the invalid index. *)
Definition face_edge := (nat * nat)%type.

(** The directed edge [j] of a face, mesh_simplification.cc 60-62. *)
Definition edge_at (f : index_face) (j : nat) : edge :=
  (fst (nth j f (0, 0)), fst (nth ((j + 1) mod length f) f (0, 0))).
(** ComputeInverseFaceEdgeMap, mesh_simplification.cc 52-68. *)
Fixpoint edge_loop (fi : nat) (f : index_face) (js : list nat) (m : list (edge * face_edge)) : outcome (list (edge * face_edge)) :=
  match js with
  | [] => Ok m
  | j :: js' => throw_unless (negb (mhas edge_eqb (edge_at f j) m)) (edge_loop fi f js' (m ++ [(edge_at f j, (fi, j))]))
  end.
Fixpoint face_loop (fi : nat) (faces : list index_face) (m : list (edge * face_edge)) : outcome (list (edge * face_edge)) :=
  match faces with
  | [] => Ok m
  | f :: fs => obind (edge_loop fi f (seq 0 (length f)) m) (face_loop (S fi) fs)
  end.
Definition ComputeInverseFaceEdgeMap (faces : list index_face) : outcome (list (edge * face_edge)) := face_loop 0 faces [].

(** FaceAdjacencyMap, mesh_simplification.h 130. *)
Definition adjacency := list (nat * list (option face_edge)).
(** v[i] = x *)
Fixpoint set_at {A} (l : list A) (i : nat) (x : A) : list A :=
  match l, i with [], _ => [] | _ :: l', O => x :: l' | y :: l', S j => y :: set_at l' j x end.
(** The loop body of ComputeFaceAdjacencyMap, mesh_simplification.cc 74-85. *)
Definition adjacency_step (faces : list index_face) (inv : list (edge * face_edge)) (entry : edge * face_edge) (adj : adjacency) : adjacency :=
  let '(e, (f, j)) := entry in
  let adj1 := if mhas Nat.eqb f adj then adj else mset Nat.eqb f (repeat None (length (nth f faces []))) adj in
  match mfind edge_eqb (reverse e) inv with
  | Some fe => mset Nat.eqb f (set_at (match mfind Nat.eqb f adj1 with Some l => l | None => [] end) j (Some fe)) adj1
  | None => adj1
  end.
(** ComputeFaceAdjacencyMap, mesh_simplification.cc 70-87; [order] is the iteration order
    of the unordered map. *)
Definition ComputeFaceAdjacencyMap (order : list (edge * face_edge) -> list (edge * face_edge)) (faces : list index_face) : outcome adjacency :=
  omap (fun inv => fold_left (fun adj entry => adjacency_step faces inv entry adj) (order inv) []) (ComputeInverseFaceEdgeMap faces).

(** GetMeshFaceVertexPosition and GetMeshFaceVertexNormal, mesh_simplification.cc 89-95. *)
Definition at_ {A} (l : list A) (i : nat) : outcome A := match nth_error l i with Some x => Ok x | None => Throw end.
Definition GetMeshFaceVertexPosition (m : geo_mesh) (c : nat * nat) : outcome vec := at_ (ivector (mvertices m)) (fst c).
Definition GetMeshFaceVertexNormal (m : geo_mesh) (c : nat * nat) : outcome vec := at_ (ivector (mnormals m)) (snd c).

(** The test of one vertex in DoMeshVerticesLieOnPlane, mesh_simplification.h 168-173 with
    DistanceToAPlane, mesh_simplification.cc 41-45: ctheta^2 = (n.nv)^2/nv^2 (NaN for nv = 0),
    distance^2 = (n.q - n.p)^2/n^2, for a positive tolerance. *)
Definition vertex_on_plane (n p : vec) (tol : Q) (q nv : vec) : outcome bool :=
  if Qeq_bool (vdot nv nv) 0 then (if Qeq_bool (vdot n n) 0 then Throw else Ok false)
  else if Qeq_bool (vdot n nv) 0 then Ok false
  else Ok (Qltb ((vdot n q - vdot n p) * (vdot n q - vdot n p) / vdot n n) (tol * tol * (vdot n nv * vdot n nv / vdot nv nv)))%Q.
Fixpoint DoMeshVerticesLieOnPlane (m : geo_mesh) (l : index_face) (n p : vec) (tol : Q) : outcome bool :=
  match l with
  | [] => Ok true
  | c :: l' =>
      obind (GetMeshFaceVertexPosition m c) (fun q =>
      obind (GetMeshFaceVertexNormal m c) (fun nv =>
      obind (vertex_on_plane n p tol q nv) (fun b =>
      if b then DoMeshVerticesLieOnPlane m l' n p tol else Ok false)))
  end.
(** IsMeshFaceCoplanarWithPlane, mesh_simplification.cc 97-101. *)
Definition IsMeshFaceCoplanarWithPlane (m : geo_mesh) (f : index_face) (n p : vec) (tol : Q) : outcome bool := DoMeshVerticesLieOnPlane m f n p tol.
(** IsMeshFacePlanar, mesh_simplification.cc 103-112: the answer with n and p. *)
Definition IsMeshFacePlanar (m : geo_mesh) (f : index_face) (tol : Q) : outcome (bool * vec * vec) :=
  throw_unless (Nat.leb 3 (length f)) (
  obind (GetMeshFaceVertexPosition m (nth 0 f (0, 0))) (fun p =>
  obind (GetMeshFaceVertexNormal m (nth 0 f (0, 0))) (fun n =>
  obind (DoMeshVerticesLieOnPlane m (tl f) n p tol) (fun b => Ok (b, n, p))))).

(** std::set<int>: an increasing list. *)
Definition count (s : list nat) (x : nat) : bool := existsb (Nat.eqb x) s.
Fixpoint insert (x : nat) (s : list nat) : list nat :=
  match s with [] => [x] | y :: s' => if Nat.ltb x y then x :: s else if Nat.eqb x y then s else y :: insert x s' end.

(** The loop over the edges of a face in AggregateAdjacentCoplanarMeshFaces,
    mesh_simplification.cc 134-147. *)
Fixpoint edges_loop (m : geo_mesh) (n p : vec) (tol : Q) (visited : list nat) (es : list (option face_edge)) (mergeable queue : list nat) : outcome (list nat * list nat) :=
  match es with
  | [] => Ok (mergeable, queue)
  | None :: es' => edges_loop m n p tol visited es' mergeable queue
  | Some (g, _) :: es' =>
      if count mergeable g then edges_loop m n p tol visited es' mergeable queue
      else if count visited g then edges_loop m n p tol visited es' mergeable queue
      else obind (IsMeshFaceCoplanarWithPlane m (nth g (mfaces m) []) n p tol) (fun b =>
           if b then edges_loop m n p tol visited es' (insert g mergeable) (queue ++ [g])
           else edges_loop m n p tol visited es' mergeable queue)
  end.
(** The while loop, mesh_simplification.cc 130-150. *)
Fixpoint visit_loop (fuel : nat) (m : geo_mesh) (adj : adjacency) (n p : vec) (tol : Q) (queue mergeable visited : list nat) : outcome (list nat * list nat) :=
  match queue with
  | [] => Ok (mergeable, visited)
  | f :: queue' =>
      match fuel with
      | O => UB
      | S fuel' =>
          match mfind Nat.eqb f adj with
          | None => Throw
          | Some es =>
              obind (edges_loop m n p tol visited es mergeable queue') (fun r =>
              visit_loop fuel' m adj n p tol (snd r) (fst r) (insert f visited))
          end
      end
  end.
(** AggregateAdjacentCoplanarMeshFaces, mesh_simplification.cc 114-155: the group and the
    visited faces. *)
Definition AggregateAdjacentCoplanarMeshFaces (m : geo_mesh) (start : nat) (adj : adjacency) (tol : Q) (visited : list nat) : outcome (list nat * list nat) :=
  throw_unless (Nat.ltb start (length (mfaces m))) (throw_unless (Qltb 0 tol) (throw_unless (negb (count visited start)) (
  obind (IsMeshFacePlanar m (nth start (mfaces m) []) tol) (fun r =>
  let '(planar, n, p) := r in
  if planar then visit_loop (S (length (mfaces m))) m adj n p tol [start] [start] visited
  else Ok ([start], insert start visited))))).

(** simply_connected_faces_indices.count(face_edge.face_index) > 0 *)
Definition inside (s : list nat) (fe : option face_edge) : bool := match fe with Some (g, _) => count s g | None => false end.
(** std::find_if over the edges of a face. *)
Fixpoint find_outer (s : list nat) (es : list (option face_edge)) (j : nat) : option nat :=
  match es with [] => None | fe :: es' => if negb (inside s fe) then Some j else find_outer s es' (S j) end.
(** FindOuterFaceEdgeIndex, mesh_simplification.cc 157-174. *)
Fixpoint FindOuterFaceEdgeIndex (s l : list nat) (adj : adjacency) : outcome (option face_edge) :=
  match l with
  | [] => Ok None
  | f :: l' =>
      match mfind Nat.eqb f adj with
      | None => Throw
      | Some es => match find_outer s es 0 with Some j => Ok (Some (f, j)) | None => FindOuterFaceEdgeIndex s l' adj end
      end
  end.
(** One turn of the contour loop, mesh_simplification.cc 188-197: the contour vertex added,
    if any, and the next edge. *)
Definition contour_step (s : list nat) (adj : adjacency) (fe : face_edge) : outcome (option face_edge * face_edge) :=
  match mfind Nat.eqb (fst fe) adj with
  | None => Throw
  | Some es =>
      match nth_error es (snd fe) with
      | None => UB
      | Some other =>
          match other with
          | Some (g, k) =>
              if count s g
              then match mfind Nat.eqb g adj with
                   | None => Throw
                   | Some es' => if Nat.eqb (length es') 0 then UB else Ok (None, (g, (k + 1) mod length es'))
                   end
              else Ok (Some fe, (fst fe, (snd fe + 1) mod length es))
          | None => Ok (Some fe, (fst fe, (snd fe + 1) mod length es))
          end
      end
  end.
Definition opt_list {A} (o : option A) : list A := match o with Some x => [x] | None => [] end.
(** The do-while loop of ComputeMeshFacesContour, mesh_simplification.cc 187-198. *)
Fixpoint contour_loop (fuel : nat) (s : list nat) (adj : adjacency) (first cur : face_edge) (acc : list face_edge) : outcome (list face_edge) :=
  match fuel with
  | O => UB
  | S fuel' =>
      obind (contour_step s adj cur) (fun r =>
      if edge_eqb (snd r) first then Ok (acc ++ opt_list (fst r)) else contour_loop fuel' s adj first (snd r) (acc ++ opt_list (fst r)))
  end.
(** ComputeMeshFacesContour, mesh_simplification.cc 176-200. *)
Definition ComputeMeshFacesContour (s : list nat) (adj : adjacency) : outcome (list face_edge) :=
  obind (FindOuterFaceEdgeIndex s s adj) (fun fe =>
  match fe with
  | None => Throw
  | Some first => contour_loop (S (fold_right (fun x k => length (snd x) + k) 0 adj)) s adj first first []
  end).

(** MeshFaceVertexAt, mesh_simplification.cc 202-206. *)
Definition MeshFaceVertexAt (m : geo_mesh) (fv : face_edge) : outcome (nat * nat) := obind (at_ (mfaces m) (fst fv)) (fun f => at_ f (snd fv)).
Fixpoint all_at {A B} (f : A -> outcome B) (l : list A) : outcome (list B) :=
  match l with [] => Ok [] | x :: l' => obind (f x) (fun y => obind (all_at f l') (fun ys => Ok (y :: ys))) end.
(** SimplifyMeshFacesContour, mesh_simplification.cc 208-224; the positions are looked up
    first (all of them are, by max_element and to_edge of the outermost call). *)
Definition SimplifyMeshFacesContour (m : geo_mesh) (contour : list face_edge) (tol : Q) : outcome (list face_edge) :=
  if Nat.leb (length contour) 3 then Ok contour
  else obind (all_at (fun fv => obind (MeshFaceVertexAt m fv) (GetMeshFaceVertexPosition m)) contour) (fun ps =>
       omap (map fst) (ApplyDouglasPeuckerSimplification snd tol (combine contour ps))).
(** The loop of MergeMeshFaces, mesh_simplification.cc 235-238; the vectors are unchecked. *)
Fixpoint merge_loop (m : geo_mesh) (l : list face_edge) (f : geo_face) : outcome geo_face :=
  match l with
  | [] => Ok f
  | fv :: l' =>
      obind (MeshFaceVertexAt m fv) (fun c =>
      match nth_error (ivector (mvertices m)) (fst c), nth_error (ivector (mnormals m)) (snd c) with
      | Some v, Some n => merge_loop m l' (push_vn v n f)
      | _, _ => UB
      end)
  end.
(** MergeMeshFaces, mesh_simplification.cc 226-240. *)
Definition MergeMeshFaces (m : geo_mesh) (s : list nat) (adj : adjacency) (tol : Q) : outcome geo_face :=
  obind (ComputeMeshFacesContour s adj) (fun contour =>
  obind (SimplifyMeshFacesContour m contour tol) (fun contour' => merge_loop m contour' (mk_face [] []))).

(** The loop of SimplifyMeshFaces, mesh_simplification.cc 247-256; it also records the
    groups of faces that were merged. *)
Fixpoint simplify_loop (m : geo_mesh) (adj : adjacency) (tol : Q) (is_ : list nat) (visited : list nat) (out : geo_mesh) (groups : list (list nat)) : outcome (geo_mesh * list (list nat)) :=
  match is_ with
  | [] => Ok (out, groups)
  | i :: is' =>
      if count visited i then simplify_loop m adj tol is' visited out groups
      else obind (AggregateAdjacentCoplanarMeshFaces m i adj tol visited) (fun r =>
           obind (MergeMeshFaces m (fst r) adj tol) (fun f =>
           obind (PushFace f out) (fun out' =>
           simplify_loop m adj tol is' (snd r) out' (groups ++ [fst r]))))
  end.
(** SimplifyMeshFaces, mesh_simplification.cc 242-258, with the groups. *)
Definition SimplifyMeshFaces (order : list (edge * face_edge) -> list (edge * face_edge)) (m : geo_mesh) (tol : Q) : outcome (geo_mesh * list (list nat)) :=
  obind (ComputeFaceAdjacencyMap order (mfaces m)) (fun adj =>
  simplify_loop m adj tol (seq 0 (length (mfaces m))) [] GeoMesh []).
