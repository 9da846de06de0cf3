(** Vocabulary for the statements about plugin discovery; nothing here uses the functions of the model. *)
From Coq Require Import String Ascii List ZArith.
From Verif Require Import Plugins_Model.
Import ListNotations.
Local Open Scope string_scope.

Fixpoint contains (c : ascii) (s : string) : Prop :=
  match s with EmptyString => False | String d r => c = d \/ contains c r end.

(** Every text of [l] followed by a colon. *)
Fixpoint colons (l : list string) : string :=
  match l with [] => "" | p :: l' => p ++ ":" ++ colons l' end.
(** A search path and its parts: each part ends at a colon or, when it is not empty, at the end. *)
Inductive parts : string -> list string -> Prop :=
| parts_closed : forall l, Forall (fun p => ~ contains ":" p) l -> parts (colons l) l
| parts_open : forall l q, Forall (fun p => ~ contains ":" p) l -> ~ contains ":" q -> q <> "" ->
    parts (colons l ++ q) (l ++ [q]).

(** The names that lead from a node to a file. *)
Inductive leads : node -> list string -> Prop :=
| leads_here : leads File []
| leads_down : forall l name e names, In (name, e) l -> leads e names -> leads (Dir l) (name :: names).
(** The directory with a slash at its end. *)
Inductive with_slash : string -> string -> Prop :=
| slash_given : forall x, with_slash (x ++ "/") (x ++ "/")
| slash_added : forall dir, ~ (exists x, dir = x ++ "/") -> with_slash dir (dir ++ "/").
(** The path of names below a directory. *)
Definition path_below (dir : string) (names : list string) (p : string) : Prop :=
  exists d, with_slash dir d /\ p = d ++ String.concat "/" names.

(** A directory tree with sensible names: not empty, no slash, each name once in its directory. *)
Inductive sensible : node -> Prop :=
| sensible_file : sensible File
| sensible_locked : sensible Locked
| sensible_broken : sensible Broken
| sensible_dir : forall l, NoDup (map fst l) ->
    (forall name e, In (name, e) l -> name <> "" /\ ~ contains "/" name /\ sensible e) -> sensible (Dir l).

(** Some directory below (or the node itself) cannot be listed, or some entry has no status. *)
Inductive unreadable : node -> Prop :=
| unreadable_locked : unreadable Locked
| unreadable_broken : unreadable Broken
| unreadable_dir : forall l name e, In (name, e) l -> unreadable e -> unreadable (Dir l).

(** The library is a plugin: it names itself and its type. *)
Definition plugin_library {RN} (lib : library RN) (id : string) (ty : Z) : Prop :=
  id_symbol lib = Gives (Some id) /\ id <> "" /\ type_symbol lib = Gives ty.
(** The plugin at a path. *)
Definition plugin_at {RN} (w : world RN) (path id : string) (ty : Z) (lib : library RN) : Prop :=
  path <> "" /\ dl w path = Some lib /\ plugin_library lib id ty.
