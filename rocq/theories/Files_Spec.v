(** What creating a directory with its parents should do. *)
From Coq Require Import List Bool Arith Ascii.
From Verif Require Import Files_Model.
Import ListNotations.

(** Names of files and directories. *)
Definition proper (n : name) : Prop := n <> [] /\ ~ In slash n /\ n <> [dot] /\ n <> [dot; dot].
(** The path written with names [names], from the root or from the working directory. *)
Fixpoint join (names : list name) : text := match names with [] => [] | [n] => n | n :: l => n ++ slash :: join l end.
Definition written (absolute : bool) (names : list name) : text := if absolute then slash :: join names else join names.
Definition base (absolute : bool) (cwd : list name) : list name := if absolute then [] else cwd.
(** A file system: whatever exists is in a directory. *)
Definition tree (fs : fsys) : Prop := (exists w, fs [] = Some (Dir w)) /\ forall l n, fs (l ++ [n]) <> None -> exists w, fs l = Some (Dir w).
(** [names] can be created from [b]: the last one of its prefixes that exists is a directory
    where things can be created. *)
Definition creatable (fs : fsys) (b names : list name) : Prop :=
  exists k, k < length names /\ fs (b ++ firstn k names) = Some (Dir true) /\ forall j, k < j -> j <= length names -> fs (b ++ firstn j names) = None.
(** [fs'] is [fs] with the missing prefixes created. *)
Definition with_parents (fs : fsys) (b names : list name) (fs' : fsys) : Prop :=
  (forall k, k <= length names -> fs (b ++ firstn k names) = None -> fs' (b ++ firstn k names) = Some (Dir true)) /\
  forall l, fs l <> None \/ (forall k, l <> b ++ firstn k names) -> fs' l = fs l.
(** mkdir -p *)
Definition mkdir_p (fs : fsys) (b names : list name) (ok : bool) (fs' : fsys) : Prop :=
  if ok then ((exists w, fs (b ++ names) = Some (Dir w)) \/ creatable fs b names) /\ with_parents fs b names fs'
  else ~ (exists w, fs (b ++ names) = Some (Dir w)) /\ ~ creatable fs b names.
