(** Specification vocabulary for C46 and C47. *)
From Coq Require Import List QArith Bool String.
From Verif Require Import Base Mesh_Model.
Import ListNotations.
Local Open Scope nat_scope.

(** Same point. *)
Definition same (a b : vec) : Prop := (vx a == vx b)%Q /\ (vy a == vy b)%Q /\ (vz a == vz b)%Q.
Definition same_corner (c d : vec * vec) : Prop := same (fst c) (fst d) /\ same (snd c) (snd d).

(** A face is a list of corners: vertex and normal. *)
Definition corners (f : geo_face) : list (vec * vec) := combine (gvertices f) (gnormals f).
(** A mesh with the faces that were put in it, in order. *)
Inductive built : geo_mesh -> list (list (vec * vec)) -> Prop :=
| built_new : built GeoMesh []
| built_push m fs f m' : built m fs -> PushFace f m = Ok m' -> built m' (fs ++ [corners f])
| built_add m fs o gs m' : built m fs -> built o gs -> AddFacesFrom o m = Ok m' -> built m' (fs ++ gs).

(** What an index face stands for. *)
Definition corner_of (m : geo_mesh) (c : nat * nat) (p : vec * vec) : Prop :=
  nth_error (ivector (mvertices m)) (fst c) = Some (fst p) /\ nth_error (ivector (mnormals m)) (snd c) = Some (snd p).
Definition stands_for (m : geo_mesh) (f : index_face) (ps : list (vec * vec)) : Prop := Forall2 (corner_of m) f ps.

(** A reader of OBJ files: all vertex lines, all normal lines, and the faces with the
    material in force; indices count from 1 over the whole file. *)
Definition obj_vertices {num} (l : list (line num)) : list (num * num * num) := flat_map (fun x => match x with LV a b c => [(a, b, c)] | _ => [] end) l.
Definition obj_normals {num} (l : list (line num)) : list (num * num * num) := flat_map (fun x => match x with LVN a b c => [(a, b, c)] | _ => [] end) l.
Fixpoint obj_faces {num} (mat : string) (l : list (line num)) : list (string * list (nat * nat)) :=
  match l with
  | [] => []
  | LUseMtl s :: l' => obj_faces s l'
  | LF f :: l' => (mat, f) :: obj_faces mat l'
  | _ :: l' => obj_faces mat l'
  end.
Definition line_at {A} (l : list A) (i : nat) (x : A) : Prop := 1 <= i /\ nth_error l (i - 1) = Some x.
(** The lines that a vertex and a normal are written as. *)
Definition vertex_line {num} (to_str : Q -> num) (origin v : vec) : num * num * num := (to_str (vx v - vx origin)%Q, to_str (vy v - vy origin)%Q, to_str (vz v - vz origin)%Q).
Definition normal_line {num} (to_str : Q -> num) (n : vec) : num * num * num := (to_str (vx n), to_str (vy n), to_str (vz n)).
(** The face line [c] refers to the lines written for the corners [ps]. *)
Definition refers {num} (to_str : Q -> num) (origin : vec) (file : list (line num)) (ps : list (vec * vec)) (c : list (nat * nat)) : Prop :=
  Forall2 (fun p i => exists v n, same (fst p) v /\ same (snd p) n /\
    line_at (obj_vertices file) (fst i) (vertex_line to_str origin v) /\ line_at (obj_normals file) (snd i) (normal_line to_str n)) ps c.
