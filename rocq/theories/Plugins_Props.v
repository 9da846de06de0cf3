(** C94: search paths and directory listings.  C95: the plugin manager.  C96: road network loaders. *)
From Coq Require Import String Ascii List Bool Lia Arith ZArith Permutation.
From Verif Require Import Base Plugins_Model Plugins_Spec Plugins_Proofs Plugins_Proofs2 Plugins_Proofs3.
Import ListNotations.
Local Open Scope string_scope.

(** ** C94 *)

(** The paths of a search path are exactly its parts between colons, in order; every search path has
    parts, a colon at the end adds none, and an unset variable has none. *)
Theorem search_path_parts : forall s l, (GetAllPathsFromEnvironment (Some s) = l <-> parts s l) /\ GetAllPathsFromEnvironment None = [].
Proof.
  intros s l. split; [| reflexivity]. split; [| apply environment_parts].
  intros <-. destruct (parts_total (String.length s) s (le_n _)) as [l' P]. rewrite (environment_parts _ _ P). exact P.
Qed.
Print Assumptions search_path_parts.
Example search_path_example : parts "/a::/b c:" ["/a"; ""; "/b c"] /\ GetAllPathsFromEnvironment (Some "/a::/b c:") = ["/a"; ""; "/b c"] /\
  GetAllPathsFromEnvironment (Some "/a:/b") = ["/a"; "/b"].
Proof. split; [apply search_path_parts; reflexivity | split; reflexivity]. Qed.

(** The suffix of a path is what follows its last dot, or the whole path. *)
Theorem suffix_of_path : forall p x, GetSuffixFromPath p = x <->
  ~ contains "." x /\ (p = x \/ exists b, p = b ++ "." ++ x).
Proof.
  intros p x. unfold GetSuffixFromPath. destruct (after_last_dot p) as [y |] eqn:E.
  - apply after_dot_some in E as (N & b & Eb). split.
    + intros <-. split; [exact N | right; eauto].
    + intros (Nx & [-> | [b' Eb']]).
      * exfalso. symmetry in Eb. exact (no_sep _ _ _ _ Nx Eb).
      * assert (A : after_last_dot p = Some x) by (apply after_dot_some; eauto).
        assert (A' : after_last_dot p = Some y) by (apply after_dot_some; eauto). congruence.
  - apply after_dot_none in E. split; [intros <-; auto |]. intros (_ & [-> | [b Eb]]); [reflexivity |].
    exfalso. symmetry in Eb. exact (no_sep _ _ _ _ E Eb).
Qed.
Print Assumptions suffix_of_path.

(** GetAllFilePathsFromDirectory returns each file below the directory exactly once, or with a suffix
    exactly those whose name ends in a dot and the suffix. *)
Theorem files_listed : forall l dir suffix ps, sensible (Dir l) -> dir <> "" ->
  GetAllFilePathsFromDirectory dir (Dir l) suffix = Ok ps ->
  (forall x, suffix = Some x -> ~ contains "." x /\ ~ contains "/" x) ->
  NoDup ps /\ forall p, In p ps <-> exists names, leads (Dir l) names /\ path_below dir names p /\
    (suffix = None \/ suffix = Some "" \/ exists x b, suffix = Some x /\ last names "" = b ++ "." ++ x).
Proof.
  intros l dir suffix ps S _ H Sx. destruct (listing_exact _ S _ _ _ H) as [Q ND]. split; [exact ND |]. intros p. rewrite Q. split.
  - intros (names & E & L & B & Sk). exists names. split; [exact L |]. split; [exact B |].
    destruct suffix as [x |]; [| left; reflexivity]. right. destruct (string_dec x "") as [-> | Ne]; [left; reflexivity | right].
    destruct (Sx x eq_refl) as [Nd Ns]. apply (suffix_wanted dir names p x E B Ne Nd Ns) in Sk as [b Hb]. exists x, b. auto.
  - intros (names & L & B & W). assert (E : names <> []) by (inversion L; discriminate). exists names. repeat (split; [assumption |]).
    destruct W as [-> | [-> | (x & b & -> & Hb)]]; [reflexivity | reflexivity |].
    destruct (string_dec x "") as [-> | Ne]; [reflexivity |]. destruct (Sx x eq_refl) as [Nd Ns].
    apply (suffix_wanted dir names p x E B Ne Nd Ns). eauto.
Qed.
Print Assumptions files_listed.

(** It throws exactly when something below cannot be read, even outside the wanted files. *)
Theorem files_listing_throws : forall l dir suffix,
  (GetAllFilePathsFromDirectory dir (Dir l) suffix = Throw <-> unreadable (Dir l)) /\
  GetAllFilePathsFromDirectory dir (Dir l) suffix <> UB.
Proof.
  intros l dir suffix. pose proof (listing_outcome (Dir l) dir suffix) as H. destruct (GetAllFilePathsFromDirectory dir (Dir l) suffix).
  - split; [split; [discriminate | contradiction] | discriminate].
  - destruct H as [H | H]; [discriminate |]. split; [tauto | discriminate].
  - destruct H.
Qed.
Print Assumptions files_listing_throws.

(** Finding: a suffix with a dot in it (".so", "tar.gz") finds nothing, whatever the directory holds. *)
Theorem dotted_suffix_finds_nothing : forall l dir x, sensible (Dir l) -> contains "." x -> ~ unreadable (Dir l) ->
  GetAllFilePathsFromDirectory dir (Dir l) (Some x) = Ok [].
Proof.
  intros l dir x S D U. pose proof (listing_outcome (Dir l) dir (Some x)) as H.
  destruct (GetAllFilePathsFromDirectory dir (Dir l) (Some x)) as [ps | |] eqn:E; [| destruct H as [H | H]; [discriminate | contradiction] | destruct H].
  destruct (listing_exact _ S _ _ _ E) as [Q _]. destruct ps as [| p ps]; [reflexivity |]. exfalso.
  destruct (proj1 (Q p) (or_introl eq_refl)) as (names & _ & _ & _ & Sk). rewrite skipped_dot in Sk by exact D. discriminate.
Qed.
Print Assumptions dotted_suffix_finds_nothing.
Theorem suffix_finds_its_files_refuted : exists l dir x name ps, sensible (Dir l) /\ In (name, File) l /\ (exists b, name = b ++ x) /\ x <> "" /\
  GetAllFilePathsFromDirectory dir (Dir l) (Some x) = Ok ps /\ ~ In (dir ++ "/" ++ name) ps.
Proof.
  exists [("liba.so", File)], "/p", ".so", "liba.so", []. split.
  - constructor; [repeat constructor; intros [] |]. intros name e [H | []]. injection H as <- <-. split; [discriminate |]. split; [| constructor].
    cbn [contains]. intuition discriminate.
  - split; [left; reflexivity |]. split; [exists "liba"; reflexivity |]. split; [discriminate |]. split; [reflexivity | intros []].
Qed.
Print Assumptions suffix_finds_its_files_refuted.

Definition ex_tree : list (string * node) :=
  [("liba.so", File); ("libb.so.1", File); ("sub.so", Dir [("so", File); (".so", File); ("libc.so", File)]); ("so", File)].
Lemma ex_sensible : sensible (Dir ex_tree).
Proof.
  assert (V : forall l, forallb (fun ne => negb (String.eqb (fst ne) "")) l = true -> (forall name e, In (name, e) l -> ~ contains "/" name /\ sensible e) ->
    NoDup (map fst l) -> sensible (Dir l)).
  { intros l F H ND. constructor; [exact ND |]. intros name e I. split; [| exact (H _ _ I)].
    rewrite forallb_forall in F. specialize (F _ I). cbn [fst] in F. intros ->. discriminate. }
  unfold ex_tree. apply V; [reflexivity | | repeat constructor; cbn [map fst In]; intuition discriminate].
  intros name e H. cbn [In] in H.
  repeat (destruct H as [H | H]; [injection H as <- <-; split; [cbn [contains]; intuition discriminate | try constructor] |]); try contradiction.
  - repeat constructor; cbn [In]; intuition discriminate.
  - intros n2 e2 H2. cbn [In] in H2.
    repeat (destruct H2 as [H2 | H2]; [injection H2 as <- <-; split; [discriminate |]; split; [cbn [contains]; intuition discriminate | constructor] |]); contradiction.
Qed.
Example files_listed_example : sensible (Dir ex_tree) /\ ~ unreadable (Dir ex_tree) /\
  GetAllFilePathsFromDirectory "/p/" (Dir ex_tree) (Some "so") = Ok ["/p/liba.so"; "/p/sub.so/.so"; "/p/sub.so/libc.so"].
Proof.
  split; [exact ex_sensible |]. split; [| reflexivity]. intros U.
  pose proof (proj1 (files_listing_throws ex_tree "/p/" (Some "so"))) as H. apply H in U. discriminate U.
Qed.

(** ** C95 *)
Section Managers.
Context {RN : Type}.
Implicit Types (w : world RN) (m : manager RN).

(** The libraries a manager looks at: the files with suffix "so" below the listed directories, in the
    order of the search path; parts that are not directories are left out, and it throws only when a
    listed directory cannot be read completely. *)
Theorem library_search : forall w parts_, GetAllPathsFromEnvironment (env w) = parts_ ->
  match GetPluginLibraryPaths w with
  | Ok ps => exists per_part, ps = concat per_part /\ Forall2 (fun d qs =>
        match (if string_dec d "" then None else fs w d) with
        | Some (Dir l) => GetAllFilePathsFromDirectory d (Dir l) (Some "so") = Ok qs
        | Some Locked => False
        | _ => qs = []
        end) parts_ per_part
  | Throw => exists d n, In d parts_ /\ d <> "" /\ fs w d = Some n /\ n <> Broken /\ unreadable n
  | UB => False
  end.
Proof.
  intros w parts_ E. unfold GetPluginLibraryPaths. rewrite E. clear E.
  assert (G : forall l acc, match library_paths w l acc with
    | Ok ps => exists per_part, ps = (acc ++ concat per_part)%list /\ Forall2 (fun d qs =>
          match (if string_dec d "" then None else fs w d) with
          | Some (Dir l) => GetAllFilePathsFromDirectory d (Dir l) (Some "so") = Ok qs | Some Locked => False | _ => qs = [] end) l per_part
    | Throw => exists d n, In d l /\ d <> "" /\ fs w d = Some n /\ n <> Broken /\ unreadable n
    | UB => False end).
  { induction l as [| d l IH]; intros acc; cbn [library_paths].
    - exists []. split; [symmetry; apply app_nil_r | constructor].
    - assert (R : forall qs, match (if string_dec d "" then None else fs w d) with
                      | Some (Dir l) => GetAllFilePathsFromDirectory d (Dir l) (Some "so") = Ok qs | Some Locked => False | _ => qs = [] end ->
         match library_paths w l (acc ++ qs)%list with
         | Ok ps => exists per_part, ps = (acc ++ concat per_part)%list /\ Forall2 (fun d qs =>
               match (if string_dec d "" then None else fs w d) with
               | Some (Dir l) => GetAllFilePathsFromDirectory d (Dir l) (Some "so") = Ok qs | Some Locked => False | _ => qs = [] end) (d :: l) per_part
         | Throw => exists d0 n, In d0 (d :: l) /\ d0 <> "" /\ fs w d0 = Some n /\ n <> Broken /\ unreadable n
         | UB => False end).
      { intros qs C. specialize (IH (acc ++ qs)%list). destruct (library_paths w l (acc ++ qs)%list) as [ps | |]; [| | exact IH].
        - destruct IH as (pp & -> & F). exists (qs :: pp). split; [cbn [concat]; rewrite <- app_assoc; reflexivity | constructor; assumption].
        - destruct IH as (d0 & n & I & IH). exists d0, n. split; [right; exact I | exact IH]. }
      assert (R0 : match (if string_dec d "" then None else fs w d) with Some (Dir l) => False | Some Locked => False | _ => True end ->
         match library_paths w l acc with
         | Ok ps => exists per_part, ps = (acc ++ concat per_part)%list /\ Forall2 (fun d qs =>
               match (if string_dec d "" then None else fs w d) with
               | Some (Dir l) => GetAllFilePathsFromDirectory d (Dir l) (Some "so") = Ok qs | Some Locked => False | _ => qs = [] end) (d :: l) per_part
         | Throw => exists d0 n, In d0 (d :: l) /\ d0 <> "" /\ fs w d0 = Some n /\ n <> Broken /\ unreadable n
         | UB => False end).
      { intros C. pose proof (R []) as R1. rewrite app_nil_r in R1. apply R1.
        destruct (if string_dec d "" then None else fs w d) as [[| | | l2] |]; try reflexivity; destruct C. }
      destruct (String.eqb_spec d "") as [-> | Nd]; [apply R0; exact I |].
      destruct (string_dec d "") as [? | _]; [contradiction |].
      destruct (fs w d) as [[| | | l2] |] eqn:F; try (apply R0; exact I).
      + cbn [GetAllFilePathsFromDirectory]. exists d, Locked. split; [left; reflexivity |]. split; [exact Nd |]. split; [exact F |]. split; [discriminate | constructor].
      + pose proof (listing_outcome (Dir l2) d (Some "so")) as LO. destruct (GetAllFilePathsFromDirectory d (Dir l2) (Some "so")) as [qs | |] eqn:GL.
        * apply R. reflexivity.
        * destruct LO as [? | U]; [discriminate |]. exists d, (Dir l2). split; [left; reflexivity |]. split; [exact Nd |]. split; [exact F |]. split; [discriminate | exact U].
        * destruct LO. }
  specialize (G parts_ []). exact G.
Qed.

(** A constructed manager offers, for every id, the last library found with that id and nothing else. *)
Theorem manager_constructed : forall w ps m, GetPluginLibraryPaths w = Ok ps -> new_manager w = Ok m ->
  Forall (fun p => exists id ty lib, plugin_at w p id ty lib) ps /\
  forall id, match GetPlugin m id with
    | Some q => exists ps1 p ps2, ps = (ps1 ++ p :: ps2)%list /\ plugin_at w p id (p_type q) (p_library q) /\ p_id q = id /\
        Forall (fun p' => forall ty lib, ~ plugin_at w p' id ty lib) ps2
    | None => Forall (fun p' => forall ty lib, ~ plugin_at w p' id ty lib) ps
    end.
Proof.
  intros w ps m P H. unfold new_manager in H. rewrite P in H. cbn [obind] in H.
  destruct (add_all_ok w ps _ _ orderly_new H) as (_ & F & K). split; [exact F |]. intros id.
  destruct (K id) as [(ps1 & p & ps2 & q & ty & lib & E & PA & F2 & G & E1 & E2 & E3) | (F2 & G)]; rewrite G.
  - exists ps1, p, ps2. subst. auto.
  - exact F2.
Qed.

(** The constructor succeeds exactly when every library found is a plugin. *)
Theorem manager_construction_outcome : forall w ps, GetPluginLibraryPaths w = Ok ps ->
  match new_manager w with
  | Ok _ => Forall (fun p => exists id ty lib, plugin_at w p id ty lib) ps
  | Throw => Exists (fun p => ~ exists id ty lib, plugin_at w p id ty lib) ps
  | UB => Exists (fun p => exists lib, dl w p = Some lib /\ id_symbol lib = Gives None) ps
  end.
Proof. intros w ps P. unfold new_manager. rewrite P. cbn [obind]. apply add_all_outcome, orderly_new. Qed.

(** The managers a program can hold: constructed, and used with AddPlugin while the world changes. *)
Inductive managed : manager RN -> Prop :=
| managed_new : forall w m, new_manager w = Ok m -> managed m
| managed_add : forall w m path, managed m -> managed (snd (AddPlugin w m path)).
Lemma managed_orderly : forall m, managed m -> orderly m.
Proof.
  induction 1 as [w m H | w m path _ IH].
  - unfold new_manager in H. destruct (GetPluginLibraryPaths w) as [ps | |]; try discriminate. apply (add_all_ok w ps _ _ orderly_new H).
  - pose proof (add_spec w m path IH) as A. destruct (AddPlugin w m path) as [[u | |] m']; apply A.
Qed.

(** AddPlugin replaces or adds exactly the plugin with the id of the library, in an object of its own; when
    the library is no plugin it throws and the manager offers what it offered before. *)
Theorem add_plugin_replaces : forall w m path, managed m ->
  match AddPlugin w m path with
  | (Ok _, m') => exists id ty lib, plugin_at w path id ty lib /\
      (exists q, GetPlugin m' id = Some q /\ p_library q = lib /\ p_type q = ty /\ p_id q = id /\
         forall k old, GetPlugin m k = Some old -> p_address old <> p_address q) /\
      forall k, k <> id -> GetPlugin m' k = GetPlugin m k
  | (Throw, m') => (~ exists id ty lib, plugin_at w path id ty lib) /\ forall k, GetPlugin m' k = GetPlugin m k
  | (UB, m') => exists lib, dl w path = Some lib /\ id_symbol lib = Gives None
  end.
Proof.
  intros w m path M. pose proof (add_spec w m path (managed_orderly _ M)) as A. destruct (AddPlugin w m path) as [[u | |] m'].
  - destruct A as (_ & id & ty & lib & q & PA & E1 & E2 & E3 & Fr & G). exists id, ty, lib. split; [exact PA |]. split.
    + exists q. rewrite G, String.eqb_refl. repeat (split; [assumption || reflexivity |]). intros k old F E. apply Fr. rewrite <- E.
      apply find_in in F. apply (in_map (fun kp => p_address (snd kp))) in F. exact F.
    + intros k N. rewrite G. destruct (String.eqb_spec id k); [congruence | reflexivity].
  - destruct A as (_ & E & _ & N). split; [exact N |]. intros k. unfold GetPlugin. rewrite E. reflexivity.
  - apply A.
Qed.

(** ListPlugins lists every loaded plugin once, with its type, and nothing else. *)
Theorem plugins_listed : forall m, managed m -> NoDup (map fst (ListPlugins m)) /\
  forall id ty, In (id, ty) (ListPlugins m) <-> exists q, GetPlugin m id = Some q /\ p_type q = ty.
Proof.
  intros m M. destruct (managed_orderly _ M) as (ND & _). rewrite list_plugins by exact ND. rewrite map_map. cbn [fst]. split.
  - exact ND.
  - intros id ty. rewrite in_map_iff. split.
    + intros ([k q] & E & I). cbn [fst snd] in E. injection E as -> <-. exists q. split; [apply in_find; assumption | reflexivity].
    + intros (q & F & <-). exists (id, q). split; [reflexivity | apply find_in; exact F].
Qed.

(** Every library a manager has open belongs to one of its plugins, each to one: nothing leaks, also after
    failures and replacements, and no stored plugin has a closed library. *)
Theorem libraries_open : forall m, managed m -> NoDup (opened m) /\
  (forall h, In h (opened m) <-> exists id q, GetPlugin m id = Some q /\ p_handle q = h) /\
  forall id id' q q', GetPlugin m id = Some q -> GetPlugin m id' = Some q' -> p_handle q = p_handle q' -> id = id'.
Proof.
  intros m M. destruct (managed_orderly _ M) as (ND & OK & P & NDo). split; [exact NDo |]. split.
  - intros h. split.
    + intros I. apply (Permutation_in _ P) in I. unfold handles in I. apply in_map_iff in I as ([k q] & E & I). exists k, q. split; [apply in_find; assumption | exact E].
    + intros (id & q & F & <-). apply (Permutation_in _ (Permutation_sym P)). unfold handles. apply find_in in F. apply (in_map (fun kp => p_handle (snd kp))) in F. exact F.
  - intros id id' q q' F F' E. apply find_in in F, F'. assert (NDh : NoDup (handles m)) by (eapply Permutation_NoDup; eassumption).
    unfold handles in NDh. clear - NDh F F' E. induction (plugins m) as [| [k p] l IH]; [destruct F |]. cbn [map snd] in NDh. inversion NDh as [| ? ? N ND']; subst.
    destruct F as [F | F], F' as [F' | F'].
    + congruence.
    + injection F as -> ->. exfalso. apply N. rewrite E. apply (in_map (fun kp => p_handle (snd kp))) in F'. exact F'.
    + injection F' as -> ->. exfalso. apply N. rewrite <- E. apply (in_map (fun kp => p_handle (snd kp))) in F. exact F.
    + auto.
Qed.

(** A pointer from GetPlugin stays valid while plugins with other ids are added. *)
Theorem plugin_pointer_stable : forall w m path id q, managed m -> GetPlugin m id = Some q ->
  (forall ty lib, ~ plugin_at w path id ty lib) -> fst (AddPlugin w m path) <> UB ->
  GetPlugin (snd (AddPlugin w m path)) id = Some q.
Proof.
  intros w m path id q M G N U. pose proof (add_plugin_replaces w m path M) as A. destruct (AddPlugin w m path) as [[u | |] m']; cbn [fst snd] in *.
  - destruct A as (id' & ty & lib & PA & _ & K). rewrite K; [exact G |]. intros ->. exact (N _ _ PA).
  - destruct A as (_ & K). rewrite K. exact G.
  - contradiction.
Qed.
End Managers.
Print Assumptions library_search.
Print Assumptions manager_constructed.
Print Assumptions manager_construction_outcome.
Print Assumptions add_plugin_replaces.
Print Assumptions plugins_listed.
Print Assumptions libraries_open.
Print Assumptions plugin_pointer_stable.

(** A world with two versions of plugin "x" and a library that is no plugin. *)
Definition lib_v (v : nat) : library nat := Library (Gives (Some "x")) (Gives 0%Z) (Gives (Some (fun _ => Ok v))).
Definition ex_dl (p : string) : option (library nat) :=
  if String.eqb p "/p/v1.so" then Some (lib_v 1) else if String.eqb p "/q/v2.so" then Some (lib_v 2) else
  if String.eqb p "/r/libhelper.so" then Some (Library Missing Missing Missing) else None.
Definition ex_fs (p : string) : option node :=
  if String.eqb p "/p" then Some (Dir [("v1.so", File); ("README", File)]) else if String.eqb p "/q" then Some (Dir [("v2.so", File)]) else
  if String.eqb p "/r" then Some (Dir [("libhelper.so", File)]) else None.
Definition ex_world (e : string) : world nat := World (Some e) ex_fs ex_dl.

Example manager_example : exists m q, new_manager (ex_world "/p:/none:/q") = Ok m /\ managed m /\
  GetPluginLibraryPaths (ex_world "/p:/none:/q") = Ok ["/p/v1.so"; "/q/v2.so"] /\
  GetPlugin m "x" = Some q /\ p_library q = lib_v 2 /\ opened m = [p_handle q] /\ ListPlugins m = [("x", 0%Z)] /\ GetPlugin m "y" = None.
Proof. eexists _, _. split; [reflexivity |]. split; [eapply managed_new with (w := ex_world "/p:/none:/q"); reflexivity |]. repeat split; reflexivity. Qed.

(** Finding: a pointer handed out before AddPlugin loads another plugin with the same id is dangling: its
    library has been closed and the object is gone. *)
Theorem plugin_pointer_valid_refuted : exists w (m : manager nat) path id q, managed m /\ GetPlugin m id = Some q /\
  fst (AddPlugin w m path) = Ok tt /\ ~ In (p_handle q) (opened (snd (AddPlugin w m path))) /\
  forall k q', GetPlugin (snd (AddPlugin w m path)) k = Some q' -> p_address q' <> p_address q.
Proof.
  destruct (new_manager (ex_world "/p")) as [m | |] eqn:E; try discriminate.
  exists (ex_world "/p"), m, "/q/v2.so", "x". destruct (GetPlugin m "x") as [q |] eqn:G.
  2: { exfalso. vm_compute in E. injection E as <-. discriminate G. }
  exists q. split; [eapply managed_new; exact E |]. split; [reflexivity |].
  vm_compute in E. injection E as <-. vm_compute in G. injection G as <-. split; [reflexivity |]. split.
  - vm_compute. intros [H | []]. discriminate.
  - intros k q' H. unfold GetPlugin in H. cbn [AddPlugin] in H. apply find_in in H. vm_compute in H. destruct H as [H | []]. injection H as _ <-. vm_compute. discriminate.
Qed.
Print Assumptions plugin_pointer_valid_refuted.

(** Finding: one library below the search path that is not a plugin (a helper library, say) leaves the
    program without any plugin, although the others are fine. *)
Theorem bad_library_skipped_refuted : exists (w : world nat) ps p lib ty, GetPluginLibraryPaths w = Ok ps /\ In p ps /\
  plugin_at w p "x" ty lib /\ new_manager w = Throw.
Proof.
  exists (ex_world "/p:/r"), ["/p/v1.so"; "/r/libhelper.so"], "/p/v1.so", (lib_v 1), 0%Z.
  split; [reflexivity |]. split; [left; reflexivity |]. split; [| reflexivity].
  split; [discriminate |]. split; [reflexivity |]. split; [reflexivity |]. split; [discriminate | reflexivity].
Qed.
Print Assumptions bad_library_skipped_refuted.

(** ** C96 *)
Section Loading.
Context {RN : Type}.

(** Calls of MakeRoadNetworkLoader and CreateRoadNetwork with any ids and properties in any environments. *)
Inductive calls : option (manager RN) -> option (manager RN) -> Prop :=
| calls_none : forall st, calls st st
| calls_make : forall st st1 w id, calls st st1 -> calls st (snd (MakeRoadNetworkLoader w st1 id))
| calls_create : forall st st1 w id ps, calls st st1 -> calls st (snd (CreateRoadNetwork w st1 id ps)).
Lemma create_state : forall w st id ps, snd (CreateRoadNetwork (RN := RN) w st id ps) = snd (MakeRoadNetworkLoader w st id).
Proof. intros w st id ps. unfold CreateRoadNetwork. destruct (MakeRoadNetworkLoader w st id) as [[[l |] | |] st']; reflexivity. Qed.
Lemma calls_keep : forall st st', calls st st' -> forall m, st = Some m -> st' = Some m.
Proof.
  induction 1 as [st | st st1 w id C IH | st st1 w id ps C IH]; intros m E; [exact E | |]; specialize (IH m E); subst st1.
  - reflexivity.
  - rewrite create_state. reflexivity.
Qed.

(** The first call of the program: the loader of the last library found with the id, provided every
    library found is a plugin and this one is a road network loader. *)
Theorem first_loader : forall w (id : string) ps l, GetPluginLibraryPaths w = Ok ps ->
  (fst (MakeRoadNetworkLoader (RN := RN) w None id) = Ok l <->
   Forall (fun p => exists id ty lib, plugin_at w p id ty lib) ps /\ id <> "" /\
   exists ps1 p ps2 lib, ps = (ps1 ++ p :: ps2)%list /\ plugin_at w p id 0 lib /\ loader_symbol lib = Gives l /\
     Forall (fun p' => forall ty lib, ~ plugin_at w p' id ty lib) ps2).
Proof.
  intros w id ps l P. unfold MakeRoadNetworkLoader. pose proof (manager_construction_outcome w ps P) as O.
  destruct (new_manager w) as [m | |] eqn:E; cbn [fst].
  - destruct (manager_constructed w ps m P E) as [F K]. specialize (K id). split.
    + destruct (String.eqb_spec id ""); [discriminate |]. destruct (GetPlugin m id) as [q |]; [| discriminate].
      destruct (Z.eqb_spec (p_type q) 0) as [T | T]; [| discriminate]. destruct (loader_symbol (p_library q)) as [| l'] eqn:L; [discriminate |].
      intros H. injection H as <-. destruct K as (ps1 & p & ps2 & Eps & PA & _ & F2). split; [exact F |]. split; [assumption |].
      exists ps1, p, ps2, (p_library q). rewrite T in PA. auto.
    + intros (_ & Ne & ps1 & p & ps2 & lib & Eps & PA & L & F2). destruct (String.eqb_spec id ""); [contradiction |].
      destruct (GetPlugin m id) as [q |].
      * destruct K as (ps1' & p' & ps2' & Eps' & PA' & _ & F2').
        assert (S : p' = p).
        { rewrite Eps in Eps'. clear - Eps' F2 F2' PA PA'. revert ps1' Eps'. induction ps1 as [| a ps1 IH]; intros [| b ps1'] E; cbn [List.app] in E; injection E as E1 E2.
          - congruence.
          - exfalso. subst. apply Forall_forall with (x := p') in F2; [exact (F2 _ _ PA') |]. apply in_or_app. right. left. reflexivity.
          - exfalso. subst. apply Forall_forall with (x := p) in F2'; [exact (F2' _ _ PA) |]. apply in_or_app. right. left. reflexivity.
          - exact (IH _ E2). }
        subst p'. destruct (plugin_at_unique _ _ _ _ _ _ _ _ PA PA') as (_ & <- & <-). cbn [Z.eqb]. rewrite L. reflexivity.
      * exfalso. rewrite Eps in K. apply Forall_forall with (x := p) in K; [exact (K _ _ PA) |]. apply in_or_app. right. left. reflexivity.
  - split; [discriminate |]. intros (F & _). apply Exists_exists in O as (p & I & N). rewrite Forall_forall in F. exfalso. exact (N (F _ I)).
  - split; [discriminate |]. intros (F & _). apply Exists_exists in O as (p & I & lib & D & S). rewrite Forall_forall in F. exfalso.
    destruct (F _ I) as (id' & ty & lib' & _ & D' & S' & _). congruence.
Qed.

(** Once a call has returned a loader, every later call with that id returns the same loader, whatever is
    called in between and whatever happens to the environment and the files. *)
Theorem loader_settled : forall w st id l st' w', MakeRoadNetworkLoader (RN := RN) w st id = (Ok l, st') ->
  forall st'', calls st' st'' -> fst (MakeRoadNetworkLoader w' st'' id) = Ok l /\
    forall ps, fst (CreateRoadNetwork w' st'' id ps) = match l with Some f => f ps | None => UB end.
Proof.
  intros w st id l st' w' H st'' C. unfold MakeRoadNetworkLoader in H.
  destruct (match st with Some m => Ok m | None => new_manager w end) as [m | |]; try discriminate. injection H as H <-.
  rewrite (calls_keep _ _ C m eq_refl).
  assert (R : fst (MakeRoadNetworkLoader w' (Some m) id) = Ok l) by (unfold MakeRoadNetworkLoader; exact H).
  split; [exact R |]. intros ps. unfold CreateRoadNetwork. destruct (MakeRoadNetworkLoader w' (Some m) id) as [o st2]. cbn [fst] in R. subst o.
  destruct l; reflexivity.
Qed.

(** A search that fails throws for every id and is not remembered: later calls behave as if it had not
    happened. *)
Theorem failed_search_retried : forall w id, new_manager (RN := RN) w = Throw ->
  fst (MakeRoadNetworkLoader w None id) = Throw /\
  forall w' id', MakeRoadNetworkLoader w' (snd (MakeRoadNetworkLoader w None id)) id' = MakeRoadNetworkLoader w' None id'.
Proof. intros w id H. unfold MakeRoadNetworkLoader at 1 3. rewrite H. split; reflexivity. Qed.
End Loading.
Print Assumptions first_loader.
Print Assumptions loader_settled.
Print Assumptions failed_search_retried.

Example loader_settled_example : exists l st', MakeRoadNetworkLoader (ex_world "/p") None "x" = (Ok (Some l), st') /\
  fst (CreateRoadNetwork (ex_world "/q") st' "x" []) = Ok 1 /\ fst (CreateRoadNetwork (ex_world "/q") None "x" []) = Ok 2.
Proof. eexists _, _. split; [reflexivity |]. split; reflexivity. Qed.

Example failed_search_retried_example : new_manager (ex_world "/p:/r") = Throw /\
  exists l, fst (MakeRoadNetworkLoader (ex_world "/p") (snd (MakeRoadNetworkLoader (ex_world "/p:/r") None "x")) "x") = Ok (Some l).
Proof. split; [reflexivity |]. eexists. reflexivity. Qed.

(** Finding: plugins that become available after the first successful search are not found: the search path
    at the time of the first call decides, although the same call at the start would have succeeded. *)
Theorem later_plugins_found_refuted : exists (w w' : world nat) id st', snd (MakeRoadNetworkLoader w None id) = st' /\
  fst (MakeRoadNetworkLoader w' st' "x") = Throw /\ exists l, fst (MakeRoadNetworkLoader w' None "x") = Ok (Some l).
Proof.
  exists (ex_world ""), (ex_world "/p"), "x". eexists. split; [reflexivity |]. split; [reflexivity |]. eexists. reflexivity.
Qed.
Print Assumptions later_plugins_found_refuted.
