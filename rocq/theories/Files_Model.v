(** Models of src/maliput/common/filesystem.cc: paths and creation of directories.
    The operating system (stat, mkdir) is not part of the repository; it is written down here
    for a file system of files and directories, without symbolic links. *)
From Coq Require Import List Bool Arith Ascii.
From Verif Require Import Base.
Import ListNotations.

(** std::string; names of files. *)
Notation text := (list ascii).
Notation name := (list ascii).
Definition text_eqb (a b : text) : bool := if list_eq_dec ascii_dec a b then true else false.
Definition slash : ascii := "/"%char.
Definition dot : ascii := "."%char.

(** What is at each place, given by the names from the root: nothing, a file, a directory (in
    which the process can create things, or not). *)
Inductive kind := File | Dir (writable : bool).
Definition fsys : Type := list name -> option kind.
Definition put (fs : fsys) (l : list name) (k : kind) : fsys := fun m => if list_eq_dec (list_eq_dec ascii_dec) m l then Some k else fs m.
Definition is_dir (fs : fsys) (l : list name) : bool := match fs l with Some (Dir _) => true | _ => false end.
Definition can_write (fs : fsys) (l : list name) : bool := match fs l with Some (Dir w) => w | _ => false end.

(** The components of a path. *)
Fixpoint split (s : text) : list name :=
  match s with
  | [] => [[]]
  | c :: s' => if ascii_dec c slash then [] :: split s' else match split s' with [] => [[c]] | n :: l => (c :: n) :: l end
  end.
(** The place where resolution of a path starts ([cwd]: working directory), and the components. *)
Definition start (cwd : list name) (s : text) : list name * list name :=
  match s with c :: s' => if ascii_dec c slash then ([], split s') else (cwd, split s) | [] => (cwd, split s) end.
(** Path resolution. *)
Fixpoint walk (fs : fsys) (cur : list name) (l : list name) : option (list name) :=
  match l with
  | [] => Some cur
  | c :: l' =>
      if is_dir fs cur then
        if text_eqb c [] || text_eqb c [dot] then walk fs cur l'
        else if text_eqb c [dot; dot] then walk fs (removelast cur) l'
        else match fs (cur ++ [c]) with Some _ => walk fs (cur ++ [c]) l' | None => None end
      else None
  end.
Definition resolve (fs : fsys) (cwd : list name) (s : text) : option (list name) :=
  match s with [] => None | _ => let '(cur, l) := start cwd s in walk fs cur l end.
(** stat(s) == 0, and what is there *)
Definition stat (fs : fsys) (cwd : list name) (s : text) : option kind := match resolve fs cwd s with Some l => fs l | None => None end.
Fixpoint drop_empty (l : list name) : list name := match l with [] :: l' => drop_empty l' | _ => l end.
(** mkdir(s): the new state, if it succeeds.  Slashes at the end are ignored. *)
Definition mkdir (fs : fsys) (cwd : list name) (s : text) : option fsys :=
  match s with
  | [] => None
  | _ => let '(cur, l) := start cwd s in
      match drop_empty (rev l) with
      | [] => None
      | c :: r =>
          match walk fs cur (rev r) with
          | None => None
          | Some d => if can_write fs d && negb (text_eqb c [dot]) && negb (text_eqb c [dot; dot]) && match fs (d ++ [c]) with None => true | Some _ => false end
                      then Some (put fs (d ++ [c]) (Dir true)) else None
          end
      end
  end.

(** Path::exists, filesystem.cc 129-132; is_directory, 116-123. *)
Definition exists_ (fs : fsys) (cwd : list name) (p : text) : bool := match stat fs cwd p with Some _ => true | None => false end.
Definition is_directory (fs : fsys) (cwd : list name) (p : text) : bool := match stat fs cwd p with Some (Dir _) => true | _ => false end.
(** Path::normalize, 146-150: back() of an empty string is undefined behaviour. *)
Definition normalize (p : text) : outcome text :=
  match p with
  | [] => UB
  | _ => Ok (if (if ascii_dec (last p slash) slash then true else false) && Nat.ltb 1 (length p) then firstn (length p - 1) p else p)
  end.
(** Path::set_path, 84-87. *)
Definition set_path (p : text) : outcome text := normalize p.
(** Path::append, 134-144. *)
Definition append (p q : text) : outcome text :=
  normalize (match q with c :: _ => if ascii_dec c slash then q else p ++ slash :: q | [] => p ++ slash :: q end).

(** temp.find('/', pos) *)
Fixpoint find_slash (s : text) (pos : nat) : option nat :=
  match s, pos with
  | [], _ => None
  | c :: s', 0 => if ascii_dec c slash then Some 0 else option_map S (find_slash s' 0)
  | _ :: s', S p => option_map S (find_slash s' p)
  end.
(** The loop of Filesystem::create_directory_recursive, 193-202; false: a directory could not
    be made. *)
Fixpoint make_parents (fuel : nat) (cwd : list name) (temp : text) (pos : nat) (fs : fsys) : outcome (bool * fsys) :=
  match fuel with
  | 0 => UB
  | S k =>
      match find_slash temp (pos + 1) with
      | None => Ok (true, fs)
      | Some pos =>
          if exists_ fs cwd (firstn pos temp) then make_parents k cwd temp pos fs
          else match mkdir fs cwd (firstn pos temp) with Some fs' => make_parents k cwd temp pos fs' | None => Ok (false, fs) end
      end
  end.
(** Filesystem::create_directory_recursive, 186-204. *)
Definition create_directory_recursive (cwd : list name) (temp : text) (fs : fsys) : outcome (bool * fsys) :=
  match temp with
  | [] => Ok (false, fs)
  | _ => obind (make_parents (S (length temp)) cwd temp 1 fs) (fun r =>
           let '(ok, fs') := r in
           if ok then match mkdir fs' cwd temp with Some fs'' => Ok (true, fs'') | None => Ok (false, fs') end else Ok (false, fs'))
  end.
