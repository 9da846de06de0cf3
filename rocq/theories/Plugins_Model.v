(** Models of src/maliput/utility/file_utils.cc and src/maliput/plugin: the search for plugin
    libraries, the plugin manager and the creation of road networks. *)
From Coq Require Import String Ascii List Bool ZArith.
From Verif Require Import Base.
Import ListNotations.
Local Open Scope string_scope.

(** ** file_utils.cc *)

(** std::string::find_last_of('.') followed by substr(it + 1): the text after the last dot. *)
Fixpoint after_last_dot (s : string) : option string :=
  match s with
  | EmptyString => None
  | String c r => match after_last_dot r with
                  | Some x => Some x
                  | None => if Ascii.eqb c "." then Some r else None
                  end
  end.
(** GetSuffixFromPath, file_utils.cc 42-45. *)
Definition GetSuffixFromPath (filepath : string) : string :=
  match after_last_dot filepath with None => filepath | Some x => x end.

(** What fs::is_directory and fs::directory_iterator find: a file (anything that is not a directory, also
    a dangling link), a directory that cannot be listed, an entry whose status cannot be determined (a
    chain of links ends in one after too many links), or a directory with its entries in the order of the
    iterator.  Files do not change during a call. *)
Inductive node := File | Locked | Broken | Dir (entries : list (string * node)).

(** The path of a directory entry: operator/ of std::filesystem::path for a plain file name. *)
Fixpoint ends_with_slash (s : string) : bool :=
  match s with
  | EmptyString => false
  | String c EmptyString => Ascii.eqb c "/"
  | String _ r => ends_with_slash r
  end.
Definition entry_path (dir name : string) : string :=
  if ends_with_slash dir then dir ++ name else dir ++ "/" ++ name.

(** The conditions of the filter, file_utils.cc 56-60: true when the entry is skipped. *)
Definition skipped (ends_with_suffix : option string) (path : string) : bool :=
  match ends_with_suffix with
  | None => false
  | Some x => negb (String.eqb x "") && negb (String.eqb (GetSuffixFromPath path) x)
  end.

(** GetAllFilePathsFromDirectory, file_utils.cc 47-64; the recursion finds the same tree under the path
    of the entry. *)
Fixpoint GetAllFilePathsFromDirectory (directory_path : string) (n : node) (suffix : option string) : outcome (list string) :=
  match n with
  | File | Locked | Broken => Throw
  | Dir entries =>
    (fix loop (l : list (string * node)) (filepaths : list string) : outcome (list string) :=
       match l with
       | [] => Ok filepaths
       | (name, Broken) :: _ => Throw
       | (name, File) :: l' =>
         if skipped suffix (entry_path directory_path name) then loop l' filepaths
         else loop l' (filepaths ++ [entry_path directory_path name])%list
       | (name, e) :: l' =>
         match GetAllFilePathsFromDirectory (entry_path directory_path name) e suffix with
         | Ok more_paths => loop l' (filepaths ++ more_paths)%list
         | Throw => Throw
         | UB => UB
         end
       end) entries []
  end.

(** std::getline(stream, path, ':') on the rest of the stream: the line and what is left. *)
Fixpoint getline (s : string) : string * string :=
  match s with
  | EmptyString => (EmptyString, EmptyString)
  | String c r => if Ascii.eqb c ":" then (EmptyString, r) else let '(a, b) := getline r in (String c a, b)
  end.
(** The loop of GetAllPathsFromEnvironment, file_utils.cc 76-78: getline fails when nothing is left.  Each
    round takes at least one character, so [fuel] rounds are enough for that many characters. *)
Fixpoint getlines (fuel : nat) (s : string) (paths : list string) : list string :=
  match fuel, s with
  | O, _ | _, EmptyString => paths
  | S n, _ => let '(a, b) := getline s in getlines n b (paths ++ [a])%list
  end.
(** GetAllPathsFromEnvironment, file_utils.cc 66-80; the argument is what std::getenv returns. *)
Definition GetAllPathsFromEnvironment (env : option string) : list string :=
  match env with
  | None => []
  | Some s => getlines (String.length s) s []
  end.

(** ** Libraries *)

(** dlsym: a missing symbol is an error; otherwise the function is called and returns normally. *)
Inductive symbol (A : Type) := Missing | Gives (a : A).
Arguments Missing {A}. Arguments Gives {A} a.

(** The functor of a RoadNetworkLoader, road_network_loader.h 60-61. *)
Definition properties := list (string * string).
Definition loader (RN : Type) := properties -> outcome RN.
(** A library as dlopen finds it: GetMaliputPluginId (a null pointer is [None]), GetMaliputPluginType (the
    number of the enumerator; kRoadNetworkLoader is 0) and MakeRoadNetworkLoader. *)
Record library (RN : Type) := Library {
  id_symbol : symbol (option string);
  type_symbol : symbol Z;
  loader_symbol : symbol (option (loader RN)) }.
Arguments Library {RN}. Arguments id_symbol {RN}. Arguments type_symbol {RN}. Arguments loader_symbol {RN}.

(** The process environment: MALIPUT_PLUGIN_PATH, the file system by path and the loadable libraries. *)
Record world (RN : Type) := World {
  env : option string;
  fs : string -> option node;
  dl : string -> option (library RN) }.
Arguments World {RN}. Arguments env {RN}. Arguments fs {RN}. Arguments dl {RN}.

(** MaliputPlugin, maliput_plugin.h 64-123: its address, its library, lib_handle_, id_ and type_. *)
Record plugin (RN : Type) := Plugin {
  p_address : nat; p_library : library RN; p_handle : nat; p_id : string; p_type : Z }.
Arguments Plugin {RN}. Arguments p_address {RN}. Arguments p_library {RN}. Arguments p_handle {RN}. Arguments p_id {RN}. Arguments p_type {RN}.

(** MaliputPluginManager: plugins_ (the buckets in any order), the handles dlopen returned that have not
    been passed to dlclose, and the next unused number for handles and addresses. *)
Record manager (RN : Type) := Manager {
  plugins : list (string * plugin RN); opened : list nat; next : nat }.
Arguments Manager {RN}. Arguments plugins {RN}. Arguments opened {RN}. Arguments next {RN}.

Section Code.
Context {RN : Type}.

(** GetPluginLibraryPaths, maliput_plugin_manager.cc 44-60.  Path::is_directory uses stat
    (common/filesystem.cc 116-123), which fails without an exception, always for the empty path. *)
Fixpoint library_paths (w : world RN) (paths : list string) (filepaths : list string) : outcome (list string) :=
  match paths with
  | [] => Ok filepaths
  | p :: rest =>
    if String.eqb p "" then library_paths w rest filepaths else
    match fs w p with
    | None | Some File | Some Broken => library_paths w rest filepaths
    | Some n => match GetAllFilePathsFromDirectory p n (Some "so") with
                | Ok l => library_paths w rest (filepaths ++ l)%list
                | Throw => Throw
                | UB => UB
                end
    end
  end.
Definition GetPluginLibraryPaths (w : world RN) : outcome (list string) :=
  library_paths w (GetAllPathsFromEnvironment (env w)) [].

(** The constructor of MaliputPlugin, maliput_plugin.cc 35-45, with the constructor of its Id
    (type_specific_identifier.h 77-79): the plugin and the handles.  When it throws, the destructor of
    lib_handle_ closes the library. *)
Definition make_plugin (w : world RN) (m : manager RN) (path_to_lib : string) : outcome (plugin RN) * manager RN :=
  if String.eqb path_to_lib "" then (Throw, m) else
  match dl w path_to_lib with
  | None => (Throw, m)
  | Some lib =>
    let h := next m in
    let dlclose := Manager (plugins m) (opened m) (S h) in
    match id_symbol lib with
    | Missing => (Throw, dlclose)
    | Gives None => (UB, dlclose)
    | Gives (Some id) =>
      if String.eqb id "" then (Throw, dlclose) else
      match type_symbol lib with
      | Missing => (Throw, dlclose)
      | Gives ty => (Ok (Plugin h lib h id ty), Manager (plugins m) (h :: opened m) (S h))
      end
    end
  end.

(** std::unordered_map: find, and operator[] followed by the assignment of the unique_ptr. *)
Fixpoint find_plugin (l : list (string * plugin RN)) (id : string) : option (plugin RN) :=
  match l with
  | [] => None
  | (k, p) :: l' => if String.eqb k id then Some p else find_plugin l' id
  end.
Fixpoint assign (l : list (string * plugin RN)) (id : string) (p : plugin RN) : list (string * plugin RN) :=
  match l with
  | [] => [(id, p)]
  | (k, q) :: l' => if String.eqb k id then (k, p) :: l' else (k, q) :: assign l' id p
  end.
Definition close (h : nat) (l : list nat) : list nat := remove Nat.eq_dec h l.

(** AddPlugin, maliput_plugin_manager.cc 77-85.  The assignment destroys the plugin that was stored. *)
Definition AddPlugin (w : world RN) (m : manager RN) (path_to_plugin : string) : outcome unit * manager RN :=
  if String.eqb path_to_plugin "" then (Throw, m) else
  match make_plugin w m path_to_plugin with
  | (Ok p, m1) =>
    let id := p_id p in
    let still := match find_plugin (plugins m1) id with Some old => close (p_handle old) (opened m1) | None => opened m1 end in
    (Ok tt, Manager (assign (plugins m1) id p) still (next m1))
  | (Throw, m1) => (Throw, m1)
  | (UB, m1) => (UB, m1)
  end.

(** The constructor of MaliputPluginManager, maliput_plugin_manager.cc 64-70. *)
Fixpoint add_all (w : world RN) (m : manager RN) (paths : list string) : outcome (manager RN) :=
  match paths with
  | [] => Ok m
  | p :: rest => match AddPlugin w m p with
                 | (Ok _, m1) => add_all w m1 rest
                 | (Throw, _) => Throw
                 | (UB, _) => UB
                 end
  end.
Definition new_manager (w : world RN) : outcome (manager RN) :=
  obind (GetPluginLibraryPaths w) (add_all w (Manager [] [] 0)).

(** GetPlugin, maliput_plugin_manager.cc 72-75: the object the pointer points to. *)
Definition GetPlugin (m : manager RN) (id : string) : option (plugin RN) := find_plugin (plugins m) id.

(** ListPlugins, maliput_plugin_manager.cc 87-93: emplace does nothing for a key that is present. *)
Fixpoint emplace (l : list (string * Z)) (k : string) (t : Z) : list (string * Z) :=
  match l with
  | [] => [(k, t)]
  | (k', t') :: l' => if String.eqb k' k then l else (k', t') :: emplace l' k t
  end.
Definition ListPlugins (m : manager RN) : list (string * Z) :=
  fold_left (fun l kp => emplace l (fst kp) (p_type (snd kp))) (plugins m) [].

(** MakeRoadNetworkLoader, create_road_network.cc 38-58.  [st] is the static manager; a constructor that
    throws leaves it uninitialized for the next call.  [None] as a loader is the null pointer. *)
Definition MakeRoadNetworkLoader (w : world RN) (st : option (manager RN)) (id : string) : outcome (option (loader RN)) * option (manager RN) :=
  match (match st with Some m => Ok m | None => new_manager w end) with
  | Throw => (Throw, None)
  | UB => (UB, None)
  | Ok m =>
    (if String.eqb id "" then Throw else
     match GetPlugin m id with
     | None => Throw
     | Some p =>
       if Z.eqb (p_type p) 0 then
         match loader_symbol (p_library p) with
         | Missing => Throw
         | Gives l => Ok l
         end
       else Throw
     end, Some m)
  end.

(** CreateRoadNetwork, create_road_network.cc 60-66. *)
Definition CreateRoadNetwork (w : world RN) (st : option (manager RN)) (id : string) (ps : properties) : outcome RN * option (manager RN) :=
  match MakeRoadNetworkLoader w st id with
  | (Ok (Some l), st') => (l ps, st')
  | (Ok None, st') => (UB, st')
  | (Throw, st') => (Throw, st')
  | (UB, st') => (UB, st')
  end.
End Code.
