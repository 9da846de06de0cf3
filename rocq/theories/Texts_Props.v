(** Texts of road geometries and graphs, and the log: theorems and examples. *)
From Coq Require Import String Ascii List Bool Arith Lia.
From Verif Require Import Base Texts_Model Texts_Spec Texts_Proofs Texts_Proofs2.
Import ListNotations.
Local Open Scope string_scope.

(** ** C97: GenerateString *)

(** The text has one line for each thing asked for, in the order of the tree, indented by two blanks for each
    kind of id above it that is asked for; no line end follows the last line. *)
Theorem text_shows : forall g o, GenerateString g o = String.concat nl (map (line o) (shown o g)).
Proof. exact text_lines. Qed.
Print Assumptions text_shows.

(** The text tells everything shown, when texts lie on one line and ids without labels do not begin with a blank. *)
Theorem text_tells : forall o g g', clean_text o g -> clean_text o g' ->
  GenerateString g o = GenerateString g' o -> shown o g = shown o g'.
Proof. exact items_determined. Qed.
Print Assumptions text_tells.

(** With all ids asked for, two such road geometries have the same text only if they have the same ids at the
    same places. *)
Theorem text_tells_tree : forall o g g', all_ids o -> clean_text o g -> clean_text o g' ->
  GenerateString g o = GenerateString g' o -> ids g = ids g'.
Proof. intros o g g' A C C' E. exact (tree_determined o g g' A (items_determined o g g' C C' E)). Qed.
Print Assumptions text_tells_tree.

(** A road geometry whose ids cover a junction of two segments, with and without labels. *)
Definition lane_a : lane := mk_lane "a" "10" "(0, 0, 0)" "(10, 0, 0)" None (Some "b").
Definition lane_b : lane := mk_lane "b" "11" "(0, 1, 0)" "(11, 1, 0)" (Some "a") None.
Definition road : geometry := mk_geometry "g" [None; Some (mk_junction "j" [mk_segment "s" [lane_a; lane_b]; mk_segment "t" []])].
Example text_shows_example :
  GenerateString road (mk_options true true true true true false) =
    "geometry: g" ++ nl ++ "  junction: j" ++ nl ++ "    segment: s" ++ nl ++ "      lane: a" ++ nl ++ "      lane: b" ++ nl ++ "    segment: t"
  /\ GenerateString road (mk_options false false false true true true) =
    "s" ++ nl ++
    "  a" ++ nl ++ "    length: 10" ++ nl ++ "    geo positions:" ++ nl ++ "      s_min: (0, 0, 0)" ++ nl ++ "      s_max: (10, 0, 0)" ++ nl ++
    "    to left: " ++ nl ++ "    to right: b" ++ nl ++
    "  b" ++ nl ++ "    length: 11" ++ nl ++ "    geo positions:" ++ nl ++ "      s_min: (0, 1, 0)" ++ nl ++ "      s_max: (11, 1, 0)" ++ nl ++
    "    to left: a" ++ nl ++ "    to right: " ++ nl ++ "t".
Proof. vm_compute. auto. Qed.
Definition tall : geometry := mk_geometry "g" [Some (mk_junction "j" [mk_segment "s" [lane_a]]); Some (mk_junction "k" [mk_segment "t" [lane_b]])].
Example text_tells_example : let o := mk_options false true true true true true in
  all_ids o /\ clean_text o road /\ clean_text o tall /\ GenerateString road o <> GenerateString tall o.
Proof.
  cbv zeta. split; [repeat split|]. split; [|split; [|vm_compute; discriminate]];
  intros i Hi; vm_compute in Hi; repeat (destruct Hi as [<-|Hi]); try contradiction; split; vm_compute; try reflexivity; intros; try contradiction; discriminate.
Qed.

(** False without the condition on blanks: an id that begins with blanks looks like a lane below. *)
Theorem text_tells_any_id_refuted : exists o g g', all_ids o /\
  (forall i, In i (shown o g ++ shown o g') -> one_line (payload i)) /\
  GenerateString g o = GenerateString g' o /\ ids g <> ids g'.
Proof.
  exists (mk_options false true true true true false),
    (mk_geometry "g" [Some (mk_junction "j" [mk_segment "s" []; mk_segment "  a" []])]),
    (mk_geometry "g" [Some (mk_junction "j" [mk_segment "s" [lane_a]])]).
  split; [repeat split|]. split; [|split; [vm_compute; reflexivity|vm_compute; discriminate]].
  intros i Hi. vm_compute in Hi. repeat (destruct Hi as [<-|Hi]); try contradiction; reflexivity.
Qed.
Print Assumptions text_tells_any_id_refuted.
(** False without the condition on lines, even with labels: an id that contains a line end looks like two ids. *)
Theorem text_tells_long_id_refuted : exists o g g', all_ids o /\ include_type_labels o = true /\
  (forall i, In i (shown o g ++ shown o g') -> plain_id (payload i)) /\
  GenerateString g o = GenerateString g' o /\ ids g <> ids g'.
Proof.
  exists (mk_options true true true true true false),
    (mk_geometry "g" [Some (mk_junction "j" [mk_segment ("s" ++ nl ++ "      lane: a") []])]),
    (mk_geometry "g" [Some (mk_junction "j" [mk_segment "s" [lane_a]])]).
  split; [repeat split|]. split; [reflexivity|]. split; [|split; [vm_compute; reflexivity|vm_compute; discriminate]].
  intros i Hi. vm_compute in Hi. repeat (destruct Hi as [<-|Hi]); try contradiction; cbn; discriminate.
Qed.
Print Assumptions text_tells_long_id_refuted.
(** Asking for the details of lanes shows none unless the ids of lanes are asked for too. *)
Theorem details_shown_refuted : exists g o, include_lane_details o = true /\
  (exists j s l, In (Some j) (g_junctions g) /\ In s (j_segments j) /\ In l (s_lanes s)) /\ GenerateString g o = "".
Proof.
  exists road, (mk_options false false false false false true). split; [reflexivity|]. split; [|reflexivity].
  eexists _, _, lane_a. split; [right; left; reflexivity|]. split; [left; reflexivity|left; reflexivity].
Qed.
Print Assumptions details_shown_refuted.

(** ** C98: GenerateDotStream *)

(** The drawing follows what the stream held, with one line for each edge; without a stream it throws. *)
Theorem graph_drawn : forall edges os,
  GenerateDotStream edges os = match os with None => Throw | Some s => Ok (s ++ drawing (map (fun e => drawn e false) edges)) end.
Proof.
  intros edges [s|]; [|reflexivity]. cbn [GenerateDotStream]. rewrite put_edge_lines, drawing_block. reflexivity.
Qed.
Print Assumptions graph_drawn.

(** With a route, edges on its segments are red and no others; it throws if and only if there is no stream or
    the segment of some phase has no edge, and then the stream keeps what it held. *)
Theorem route_drawn : forall edges phases os, (forall p, In p phases -> p <> []) ->
  match GenerateDotStreamRoute edges phases os with
  | Ok text => (forall s r, In (s :: r) phases -> exists e, In e edges /\ e_segment e = s) /\
               exists s reds, os = Some s /\ Forall2 (fun e red => red = true <-> on_route phases e) edges reds /\
                 text = s ++ drawing (map (fun er => drawn (fst er) (snd er)) (combine edges reds))
  | Throw => os = None \/ exists s r, In (s :: r) phases /\ forall e, In e edges -> e_segment e <> s
  | UB => False
  end.
Proof.
  intros edges phases [s|] N; cbn [GenerateDotStreamRoute]; [|auto]. pose proof (route_segments_ok edges phases N []) as X. destruct (route_segments edges phases []) as [segs| |]; cbn [obind]; [|auto|auto].
  destruct X as [A B]. split; [exact B|]. set (f := fun e => existsb (Nat.eqb (e_segment e)) segs). exists s, (map f edges). split; [reflexivity|]. split.
  - assert (R : forall e, f e = true <-> on_route phases e).
    { intros e. unfold f, on_route. rewrite existsb_exists. split.
      - intros (x & Hx & E). apply Nat.eqb_eq in E. subst x. apply A in Hx. destruct Hx as [[]|(p & r & Hp & E)]. exists p, r. auto.
      - intros (p & r & Hp & E). exists (e_segment e). split; [apply A; right; exists p, r; auto|apply Nat.eqb_refl]. }
    clear - R. induction edges as [|e l IH]; cbn [map]; constructor; auto.
  - rewrite put_route_lines, drawing_block. do 2 f_equal. f_equal. clear. subst f. induction edges as [|e l IH]; [reflexivity|]. cbn [map combine fst snd]. f_equal. exact IH.
Qed.
Print Assumptions route_drawn.

(** A drawing tells the nodes, label and colour of every edge, in order, when node ids have no blanks, labels
    have no quotes and all lie on one line. *)
Theorem drawing_tells : forall l l' : list (edge * bool),
  (forall er, In er l -> readable (fst er)) -> (forall er, In er l' -> readable (fst er)) ->
  drawing (map (fun er => drawn (fst er) (snd er)) l) = drawing (map (fun er => drawn (fst er) (snd er)) l') ->
  map (fun er => told (fst er) (snd er)) l = map (fun er => told (fst er) (snd er)) l'.
Proof. exact drawings_determine. Qed.
Print Assumptions drawing_tells.

Definition edges3 : list edge := [mk_edge 1 "s1" "n0" "n1"; mk_edge 2 "s2" "n1" "n2"; mk_edge 3 "s3" "n1" "n3"].
Example drawing_example :
  GenerateDotStream edges3 (Some "x") = Ok ("xgraph {" ++ nl ++ "n0 -- n1 [ label = ""s1"" ];" ++ nl ++ "n1 -- n2 [ label = ""s2"" ];" ++ nl ++ "n1 -- n3 [ label = ""s3"" ];" ++ nl ++ "}" ++ nl)
  /\ GenerateDotStreamRoute edges3 [[1]; [3; 3]] (Some "") = Ok ("graph {" ++ nl ++ "n0 -- n1 [ label = ""s1"" color = ""red"" ];" ++ nl ++ "n1 -- n2 [ label = ""s2"" ];" ++ nl ++ "n1 -- n3 [ label = ""s3"" color = ""red"" ];" ++ nl ++ "}" ++ nl)
  /\ GenerateDotStreamRoute edges3 [[1]; [4]] (Some "") = Throw
  /\ (forall e, In e edges3 -> readable e).
Proof. split; [vm_compute; reflexivity|]. split; [vm_compute; reflexivity|]. split; [vm_compute; reflexivity|]. intros e [<-|[<-|[<-|[]]]]; repeat split. Qed.

(** False without the condition on quotes: a segment can be called such that a drawing without any route is
    that of another graph with a red edge. *)
Theorem drawing_tells_red_refuted : exists edges edges' phases text,
  GenerateDotStream edges (Some "") = Ok text /\ GenerateDotStreamRoute edges' phases (Some "") = Ok text /\
  (exists e, In e edges' /\ on_route phases e).
Proof.
  exists [mk_edge 1 "s"" color = ""red" "a" "b"], [mk_edge 1 "s" "a" "b"], [[1]]. eexists. split; [reflexivity|]. split; [vm_compute; reflexivity|].
  exists (mk_edge 1 "s" "a" "b"). split; [left; reflexivity|]. exists [1], []. split; [left; reflexivity|reflexivity].
Qed.
Print Assumptions drawing_tells_red_refuted.

(** ** C99: the logger *)

(** Whatever was called before, the sinks have got exactly the messages at or above the level last set, each
    at the sink last set, in order, with the heading of its level, its arguments and a line end. *)
Theorem log_delivers : forall h d, Forall proper_call h ->
  (deliveries h d <-> sent (fold_left do_call h new_logger) = d).
Proof. exact delivered. Qed.
Print Assumptions log_delivers.

(** A message never throws, and neither level nor sink change with it. *)
Theorem log_safe : forall h l args, severity l <> None ->
  let g := fold_left do_call h new_logger in
  fst (log g l args) = Ok tt /\ level_ (snd (log g l args)) = level_ g /\ sink_ (snd (log g l args)) = sink_ g.
Proof. intros h l args S. cbv zeta. fold (after_calls h). destruct (log_does h l args S) as [[_ E]|[_ E]]; cbv zeta in E; rewrite E; auto. Qed.
Print Assumptions log_safe.

(** set_log_level accepts exactly the eight names; it returns the name of the level before; a refused name
    changes nothing. *)
Theorem level_named : forall g s,
  match set_log_level g s with
  | (Ok p, g') => (exists l, named l s /\ level_ g' = match l with unchanged => level_ g | _ => l end) /\ named (level_ g) p /\ sink_ g' = sink_ g /\ sent g' = sent g
  | (Throw, g') => (forall l, ~ named l s) /\ g' = g
  | (UB, _) => False
  end.
Proof.
  intros g s. unfold set_log_level. destruct (level_at kStringToLevel s) as [l| |] eqn:E.
  - apply level_at_named in E. destruct l; cbn [set_level]; (split; [eexists; split; [exact E|reflexivity]|]); (split; [destruct (level_ g); reflexivity|auto]).
  - split; [|reflexivity]. intros l H. apply level_at_named in H. congruence.
  - exact (level_at_no_ub _ _ E).
Qed.
Print Assumptions level_named.

(** Setting the level that set_log_level returned restores the logger, whatever level was set. *)
Theorem level_restored : forall h s p, let g := fold_left do_call h new_logger in
  fst (set_log_level g s) = Ok p -> exists q, set_log_level (snd (set_log_level g s)) p = (Ok q, g).
Proof.
  intros h s p g. pose proof (never_unchanged h) as U. fold (after_calls h) in g. subst g. destruct (after_calls h) as [lv sk st]. cbn [level_] in U. unfold set_log_level at 1. destruct (level_at kStringToLevel s) as [l| |] eqn:E; try discriminate.
  destruct (set_level (mk_logger lv sk st) l) as [q g'] eqn:G. cbn [fst]. intros X. injection X as <-. unfold set_log_level at 2. rewrite E, G. cbn [snd].
  assert (P : q = kLevelToString lv) by (destruct l; injection G as <- _; reflexivity). assert (K : sink_ g' = sk /\ sent g' = st) by (destruct l; injection G as _ <-; auto). destruct g' as [lv' sk' st']. cbn in K. destruct K as [-> ->]. subst q.
  destruct lv; try congruence; vm_compute; eexists; reflexivity.
Qed.
Print Assumptions level_restored.

Example log_example : let h := [Log debug ["a"]; Log warn ["b"; "c"]; SetLogLevel "error"; Log warn ["d"]; SetSink (Some 1); SetLogLevel "nonsense"; SetSink None; Log critical ["e"]; SetLevel unchanged; SetLevel off; Log critical ["f"]; SetLogLevel "trace"; Log trace []] in
  Forall proper_call h /\
  sent (fold_left do_call h new_logger) = [(0, "[WARNING] bc" ++ nl); (1, "[CRITICAL] e" ++ nl); (1, "[TRACE] " ++ nl)]
  /\ fst (set_log_level new_logger "off") = Ok "info".
Proof. split; [repeat constructor; cbn; discriminate|split; reflexivity]. Qed.

(** The documentation names the levels trace, debug, info, warning, error, critical and off: "warning" is refused. *)
Theorem documented_levels_refuted : exists s g, In s ["trace"; "debug"; "info"; "warning"; "error"; "critical"; "off"] /\ fst (set_log_level g s) = Throw.
Proof. exists "warning", new_logger. split; [cbn; tauto|reflexivity]. Qed.
Print Assumptions documented_levels_refuted.
(** The default sink ends every message with two line ends, so an empty line follows each. *)
Theorem default_sink_blank_line : forall cout l args, Sink_log cout (message l args) = cout ++ heading l ++ String.concat "" args ++ nl ++ nl.
Proof. intros. unfold Sink_log, message. rewrite !app_assoc_s. reflexivity. Qed.
Print Assumptions default_sink_blank_line.
