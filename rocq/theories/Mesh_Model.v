(** Model of include/maliput/utility/mesh.h: UniqueIndexer, GeoFace, IndexFace, GeoMesh,
    and of the mesh emission in src/maliput/utility/generate_obj.cc.
    Coordinates are exact rationals (a NaN coordinate terminates the program in
    hash_append, include/maliput/common/maliput_hash.h 144-146); indices are natural
    numbers (no overflow of int). *)
From Coq Require Import List QArith Bool String.
From Verif Require Import Base Maps.
Import ListNotations.
Local Open Scope nat_scope.

(** math::Vector3 and its operator==, include/maliput/math/vector.h; 0.0 == -0.0 are two
    representations of one number, as 0/1 and 0/2 are here. *)
Definition vec := (Q * Q * Q)%type.
Definition vx (a : vec) : Q := fst (fst a).
Definition vy (a : vec) : Q := snd (fst a).
Definition vz (a : vec) : Q := snd a.
Definition Equiv (a b : vec) : bool := Qeq_bool (vx a) (vx b) && Qeq_bool (vy a) (vy b) && Qeq_bool (vz a) (vz b).

(** UniqueIndexer<T>, mesh.h 57-85: map_ and vector_ (a pointer to the key of a map node
    is modelled by the key). *)
Record indexer := mk_indexer { imap : list (vec * nat); ivector : list vec }.
Definition no_things : indexer := mk_indexer [] [].
(** push_back, mesh.h 66-75. *)
Definition push_back (thing : vec) (u : indexer) : indexer * nat :=
  match mfind Equiv thing (imap u) with
  | Some i => (u, i)
  | None => let i := List.length (ivector u) in (mk_indexer (imap u ++ [(thing, i)]) (ivector u ++ [thing]), i)
  end.

(** GeoFace, mesh.h 148-169. *)
Record geo_face := mk_face { gvertices : list vec; gnormals : list vec }.
(** The constructor from two vectors, mesh.h 152-155 (MALIPUT_DEMAND as Throw). *)
Definition GeoFace (vs ns : list vec) : outcome geo_face :=
  throw_unless (Nat.eqb (List.length vs) (List.length ns)) (Ok (mk_face vs ns)).
(** push_vn, mesh.h 157-160. *)
Definition push_vn (v n : vec) (f : geo_face) : geo_face := mk_face (gvertices f ++ [v]) (gnormals f ++ [n]).

(** IndexFace, mesh.h 174-189. *)
Definition index_face := list (nat * nat).

(** GeoMesh, mesh.h 192-288. *)
Record geo_mesh := mk_mesh { mvertices : indexer; mnormals : indexer; mfaces : list index_face }.
Definition GeoMesh : geo_mesh := mk_mesh no_things no_things [].

(** The loop of PushFace, mesh.h 198-202; normals()[gi] is unchecked. *)
Fixpoint push_corners (vs ns : list vec) (m : geo_mesh) (face : index_face) : outcome (geo_mesh * index_face) :=
  match vs with
  | [] => Ok (m, face)
  | v :: vs' =>
      match ns with
      | [] => UB
      | n :: ns' =>
          let (us, vi) := push_back v (mvertices m) in
          let (un, ni) := push_back n (mnormals m) in
          push_corners vs' ns' (mk_mesh us un (mfaces m)) (face ++ [(vi, ni)])
      end
  end.
(** PushFace, mesh.h 196-204. *)
Definition PushFace (f : geo_face) (m : geo_mesh) : outcome geo_mesh :=
  obind (push_corners (gvertices f) (gnormals f) m []) (fun r =>
  Ok (mk_mesh (mvertices (fst r)) (mnormals (fst r)) (mfaces (fst r) ++ [snd r]))).

(** The inner loop of AddFacesFrom, mesh.h 213-218; the indices are unchecked. *)
Fixpoint add_corners (other : geo_mesh) (l : index_face) (m : geo_mesh) (face : index_face) : outcome (geo_mesh * index_face) :=
  match l with
  | [] => Ok (m, face)
  | (ovi, oni) :: l' =>
      match nth_error (ivector (mvertices other)) ovi, nth_error (ivector (mnormals other)) oni with
      | Some v, Some n =>
          let (us, vi) := push_back v (mvertices m) in
          let (un, ni) := push_back n (mnormals m) in
          add_corners other l' (mk_mesh us un (mfaces m)) (face ++ [(vi, ni)])
      | _, _ => UB
      end
  end.
Fixpoint add_faces (other : geo_mesh) (l : list index_face) (m : geo_mesh) : outcome geo_mesh :=
  match l with
  | [] => Ok m
  | f :: l' =>
      obind (add_corners other f m []) (fun r =>
      add_faces other l' (mk_mesh (mvertices (fst r)) (mnormals (fst r)) (mfaces (fst r) ++ [snd r])))
  end.
(** AddFacesFrom, mesh.h 206-221, for a mesh other than the receiver itself. *)
Definition AddFacesFrom (other : geo_mesh) (m : geo_mesh) : outcome geo_mesh := add_faces other (mfaces other) m.

(** A line of a Wavefront OBJ file; [num] is a printed number. *)
Inductive line (num : Type) :=
| LV (x y z : num)
| LVN (x y z : num)
| LF (corners : list (nat * nat))
| LUseMtl (material : string)
| LOther (text : string).
Arguments LV {num} x y z. Arguments LVN {num} x y z. Arguments LF {num} corners. Arguments LUseMtl {num} material. Arguments LOther {num} text.

Section Emit.
Context {num : Type}.
(** to_str(x, precision), include/maliput/utility/string_format.h. *)
Variable to_str : Q -> num.

(** EmitObj, mesh.h 236-271: the lines written and the offsets returned. *)
Definition EmitObj (m : geo_mesh) (material : string) (origin : vec) (voff noff : nat) : list (line num) * (nat * nat) :=
  match mfaces m with
  | [] => ([], (voff, noff))
  | _ =>
    ([LOther "# Vertices"] ++
     map (fun v => LV (to_str (vx v - vx origin)) (to_str (vy v - vy origin)) (to_str (vz v - vz origin))) (ivector (mvertices m)) ++
     [LOther "# Normals"] ++
     map (fun n => LVN (to_str (vx n)) (to_str (vy n)) (to_str (vz n))) (ivector (mnormals m)) ++
     [LOther ""; LOther "# Faces"] ++
     (if String.eqb material "" then [] else [LUseMtl material]) ++
     map (fun f => LF (map (fun c => (fst c + 1 + voff, snd c + 1 + noff)) f)) (mfaces m),
     (voff + List.length (ivector (mvertices m)), noff + List.length (ivector (mnormals m))))
  end.

(** The chain of EmitObj calls in GenerateObjFile, generate_obj.cc 1106-1128, for any list
    of meshes with their materials. *)
Fixpoint emit_chain (ms : list (geo_mesh * string)) (origin : vec) (voff noff : nat) : list (line num) :=
  match ms with
  | [] => []
  | (m, material) :: ms' =>
      let '(out, (v', n')) := EmitObj m material origin voff noff in
      out ++ emit_chain ms' origin v' n'
  end.
(** The OBJ file, generate_obj.cc 1101-1128. *)
Definition obj_file (ms : list (geo_mesh * string)) (origin : vec) : list (line num) :=
  [LOther "# GENERATED BY maliput::utility::GenerateObjFile()"; LOther "mtllib"] ++ emit_chain ms origin 0 0.
End Emit.
