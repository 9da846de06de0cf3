(** Specification vocabulary for C48 and C49. *)
From Coq Require Import List QArith Bool Arith.
From Verif Require Import Base Mesh_Model Mesh_Spec.
Import ListNotations.
Local Open Scope nat_scope.

(** ** Lines and planes *)
(** The point a + t (b - a), and the squared distance of two points. *)
Definition on_line (a b : vec) (t : Q) : vec := (vx a + t * (vx b - vx a), vy a + t * (vy b - vy a), vz a + t * (vz b - vz a))%Q.
Definition dist2 (p q : vec) : Q := ((vx p - vx q) * (vx p - vx q) + (vy p - vy q) * (vy p - vy q) + (vz p - vz q) * (vz p - vz q))%Q.
(** [q] is within [tol] of the line through [a] and [b]. *)
Definition within (tol : Q) (a b q : vec) : Prop := exists t, (dist2 q (on_line a b t) <= tol * tol)%Q.
(** [q] is within [tol] of the segment from [a] to [b]. *)
Definition within_segment (tol : Q) (a b q : vec) : Prop := exists t, (0 <= t <= 1)%Q /\ (dist2 q (on_line a b t) <= tol * tol)%Q.

(** [covered ok l out]: [out] consists of the first element of [l], the last one and some
    between, in order; [ok x y mid] holds for any two elements kept one after the other
    and the elements dropped between them. *)
Inductive covered {E} (ok : E -> E -> list E -> Prop) : list E -> list E -> Prop :=
| cov_one x : covered ok [x] [x]
| cov_keep x y mid l out : ok x y mid -> covered ok (y :: l) (y :: out) -> covered ok (x :: mid ++ y :: l) (x :: y :: out).

(** ** Meshes *)
(** The edges of a face: [side f j a b], the [j]-th one goes from vertex [a] to [b]. *)
Definition side (f : index_face) (j a b : nat) : Prop :=
  exists ca cb, nth_error f j = Some ca /\ nth_error f (if Nat.eqb (S j) (length f) then 0 else S j) = Some cb /\ fst ca = a /\ fst cb = b.
Definition side_of (fs : list index_face) (h : nat * nat) (a b : nat) : Prop := exists f, nth_error fs (fst h) = Some f /\ side f (snd h) a b.
(** No directed edge occurs twice. *)
Definition well_oriented (fs : list index_face) : Prop := forall h k a b, side_of fs h a b -> side_of fs k a b -> h = k.
(** Edge [h] is glued to edge [k], which runs in the opposite direction. *)
Definition glued (fs : list index_face) (h k : nat * nat) : Prop := exists a b, side_of fs h a b /\ side_of fs k b a.
Definition neighbours (fs : list index_face) (f g : nat) : Prop := exists i j, glued fs (f, i) (g, j).
(** Connected within a set of faces. *)
Inductive linked (fs : list index_face) (s : list nat) (f : nat) : nat -> Prop :=
| linked_self : linked fs s f f
| linked_step g h : linked fs s f g -> neighbours fs g h -> In h s -> linked fs s f h.
(** An edge of a face in the set that is not glued to a face of the set. *)
Definition outer (fs : list index_face) (s : list nat) (h : nat * nat) : Prop :=
  In (fst h) s /\ (exists a b, side_of fs h a b) /\ forall k, glued fs h k -> ~ In (fst k) s.
(** A closed walk along outer edges, without repetition. *)
Definition walk (fs : list index_face) (l : list (nat * nat)) : Prop :=
  forall i h k, nth_error l i = Some h -> nth_error l (if Nat.eqb (S i) (length l) then 0 else S i) = Some k ->
  exists a b c, side_of fs h a b /\ side_of fs k b c.
Definition outline (fs : list index_face) (s : list nat) (l : list (nat * nat)) : Prop :=
  l <> [] /\ NoDup l /\ (forall h, In h l -> outer fs s h) /\ walk fs l.

(** Faces as corners of a mesh. *)
Definition dot (a b : vec) : Q := (vx a * vx b + vy a * vy b + vz a * vz b)%Q.
Definition corner_at (m : geo_mesh) (h : nat * nat) (p : vec * vec) : Prop :=
  exists f c, nth_error (mfaces m) (fst h) = Some f /\ nth_error f (snd h) = Some c /\ corner_of m c p.
(** The corner [q] with normal [nv] lies on the plane through [p] with normal [n]: moving
    along [nv] by less than [tol] times the length of [n] reaches the plane. *)
Definition on_plane (n p : vec) (tol : Q) (c : vec * vec) : Prop :=
  exists t, let q := fst c in let nv := snd c in
  (dot n q + t * dot n nv == dot n p /\ t * t * dot nv nv < tol * tol * dot n n)%Q.
(** Face [g] is coplanar with the first corner of face [f]. *)
Definition coplanar_with (m : geo_mesh) (tol : Q) (f g : nat) : Prop :=
  exists p, corner_at m (f, 0) p /\ forall j c, corner_at m (g, j) c -> on_plane (snd p) (fst p) tol c.
(** The same, and no corner has a normal perpendicular to the one of that first corner. *)
Definition firmly_coplanar_with (m : geo_mesh) (tol : Q) (f g : nat) : Prop :=
  exists p, corner_at m (f, 0) p /\ forall j c, corner_at m (g, j) c -> on_plane (snd p) (fst p) tol c /\ ~ (dot (snd p) (snd c) == 0)%Q.
(** A group of faces grown from [seed] among the faces not in [before]. *)
Record group_of (m : geo_mesh) (tol : Q) (before : list nat) (seed : nat) (g : list nat) : Prop := {
  gr_seed : In seed g;
  gr_nodup : NoDup g;
  gr_new : forall f, In f g -> ~ In f before;
  gr_linked : forall f, In f g -> linked (mfaces m) g seed f;
  gr_coplanar : forall f, In f g -> f = seed \/ coplanar_with m tol seed f;
  gr_maximal : firmly_coplanar_with m tol seed seed -> forall f h, In f g -> neighbours (mfaces m) f h -> firmly_coplanar_with m tol seed h -> In h g \/ In h before }.
(** Vertices dropped between two vertices of a contour that are kept. *)
Definition straight (m : geo_mesh) (tol : Q) (x y : nat * nat) (mid : list (nat * nat)) : Prop :=
  forall e, In e mid -> exists px py pe, corner_at m x px /\ corner_at m y py /\ corner_at m e pe /\ (within tol (fst px) (fst py) (fst pe) \/ same (fst px) (fst py)).
(** [f] is the face made of the contour of the group [g]. *)
Definition merged (m : geo_mesh) (tol : Q) (g : list nat) (f : list (vec * vec)) : Prop :=
  exists contour kept, outline (mfaces m) g contour /\ covered (straight m tol) contour kept /\ Forall2 (corner_at m) kept f.
(** Disjoint groups, each grown from the least face that no earlier group contains. *)
Definition grouping (m : geo_mesh) (tol : Q) (groups : list (list nat)) : Prop :=
  NoDup (concat groups) /\ (forall f, In f (concat groups) -> f < length (mfaces m)) /\
  forall pre g post, groups = pre ++ g :: post -> exists seed, (forall f, f < seed -> In f (concat pre)) /\ group_of m tol (concat pre) seed g.
