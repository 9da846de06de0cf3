(** Vocabulary for the texts of road geometries, graphs and log messages. *)
From Coq Require Import String Ascii List Bool Arith.
From Verif Require Import Base Texts_Model.
Import ListNotations.
Local Open Scope string_scope.

(** ** Road geometries *)

(** What a line of the text is about. *)
Inductive item :=
| Geometry (id : string) | Junction (id : string) | Segment (id : string) | Lane (id : string)
| Length (t : string) | Places | Begins (t : string) | Ends (t : string) | LeftOf (id : string) | RightOf (id : string).

(** What the options ask for, in the order of the tree. *)
Definition if_asked {A} (b : bool) (l : list A) : list A := if b then l else [].
Definition or_none (o : option string) : string := match o with Some i => i | None => "" end.
Definition lane_items (o : options) (l : lane) : list item :=
  (Lane (l_id l) :: if_asked (include_lane_details o)
    [Length (l_length l); Places; Begins (l_min l); Ends (l_max l); LeftOf (or_none (l_left l)); RightOf (or_none (l_right l))])%list.
Definition segment_items (o : options) (s : segment) : list item :=
  (if_asked (include_segment_ids o) [Segment (s_id s)] ++ if_asked (include_lane_ids o) (flat_map (lane_items o) (s_lanes s)))%list.
Definition junction_items (o : options) (j : junction) : list item :=
  (if_asked (include_junction_ids o) [Junction (j_id j)] ++ flat_map (segment_items o) (j_segments j))%list.
(** The junctions there are. *)
Definition present (l : list (option junction)) : list junction := flat_map (fun j => match j with Some x => [x] | None => [] end) l.
Definition shown (o : options) (g : geometry) : list item :=
  (if_asked (include_road_geometry_id o) [Geometry (g_id g)] ++ flat_map (junction_items o) (present (g_junctions g)))%list.

(** Two blanks for each kind of id above that is asked for; details stand below their lane. *)
Definition count (l : list bool) : nat := List.length (filter (fun b => b) l).
Definition above_lane (o : options) : list bool := [include_road_geometry_id o; include_junction_ids o; include_segment_ids o].
Definition indentation (o : options) (i : item) : nat :=
  match i with
  | Geometry _ => 0
  | Junction _ => 2 * count [include_road_geometry_id o]
  | Segment _ => 2 * count [include_road_geometry_id o; include_junction_ids o]
  | Lane _ => 2 * count (above_lane o)
  | Length _ | Places | LeftOf _ | RightOf _ => 2 * count (above_lane o) + 2
  | Begins _ | Ends _ => 2 * count (above_lane o) + 4
  end.
Definition label (o : options) (i : item) : string :=
  match i with
  | Geometry _ => if include_type_labels o then "geometry: " else ""
  | Junction _ => if include_type_labels o then "junction: " else ""
  | Segment _ => if include_type_labels o then "segment: " else ""
  | Lane _ => if include_type_labels o then "lane: " else ""
  | Length _ => "length: " | Places => "geo positions:" | Begins _ => "s_min: " | Ends _ => "s_max: "
  | LeftOf _ => "to left: " | RightOf _ => "to right: "
  end.
Definition payload (i : item) : string :=
  match i with
  | Geometry t | Junction t | Segment t | Lane t | Length t | Begins t | Ends t | LeftOf t | RightOf t => t
  | Places => ""
  end.
Fixpoint spaces (n : nat) : string := match n with O => "" | S k => " " ++ spaces k end.
Definition line (o : options) (i : item) : string := spaces (indentation o i) ++ label o i ++ payload i.

(** Texts on one line, and ids that neither are empty nor begin with a blank. *)
Fixpoint has (c : ascii) (s : string) : bool := match s with EmptyString => false | String d r => Ascii.eqb d c || has c r end.
Definition one_line (s : string) : Prop := has "010" s = false.
Definition plain_id (s : string) : Prop := match s with EmptyString => False | String c _ => c <> " "%char end.
Definition is_id (i : item) : Prop := match i with Geometry _ | Junction _ | Segment _ | Lane _ => True | _ => False end.
Definition clean (o : options) (i : item) : Prop := one_line (payload i) /\ (include_type_labels o = false -> is_id i -> plain_id (payload i)).
Definition clean_text (o : options) (g : geometry) : Prop := forall i, In i (shown o g) -> clean o i.

(** The ids of a road geometry as a tree. *)
Definition tree := (string * list (string * list (string * list string)))%type.
Definition ids (g : geometry) : tree :=
  (g_id g, map (fun j => (j_id j, map (fun s => (s_id s, map l_id (s_lanes s))) (j_segments j))) (present (g_junctions g))).
Definition all_ids (o : options) : Prop :=
  include_road_geometry_id o = true /\ include_junction_ids o = true /\ include_segment_ids o = true /\ include_lane_ids o = true.

(** ** Graphs *)

(** A line that joins two nodes, with the label in quotes. *)
Definition drawn (e : edge) (red : bool) : string :=
  e_a e ++ " -- " ++ e_b e ++ " [ label = """ ++ e_label e ++ """" ++ (if red then " color = ""red""" else "") ++ " ];".
Definition drawing (lines : list string) : string := "graph {" ++ nl ++ String.concat "" (map (fun l => l ++ nl) lines) ++ "}" ++ nl.
(** A phase lies on the segment of its first start position. *)
Definition on_route (phases : list (list nat)) (e : edge) : Prop := exists p rest, In p phases /\ p = e_segment e :: rest.
(** What a drawing tells of an edge. *)
Definition told (e : edge) (red : bool) : string * string * string * bool := (e_a e, e_b e, e_label e, red).
Definition readable (e : edge) : Prop := has " " (e_a e) = false /\ has " " (e_b e) = false /\ has """" (e_label e) = false /\
  one_line (e_a e) /\ one_line (e_b e) /\ one_line (e_label e).

(** ** Log *)

(** Levels a message can have, from the least to the most severe. *)
Definition severity (l : level) : option nat :=
  match l with trace => Some 0 | debug => Some 1 | info => Some 2 | warn => Some 3 | error => Some 4 | critical => Some 5 | off | unchanged => None end.
Definition named (l : level) (s : string) : Prop :=
  match l with
  | trace => s = "trace" | debug => s = "debug" | info => s = "info" | warn => s = "warn" | error => s = "error"
  | critical => s = "critical" | off => s = "off" | unchanged => s = "unchanged"
  end.
(** Messages at or above the threshold are sent. *)
Definition passes (threshold l : level) : Prop :=
  match severity threshold, severity l with Some a, Some b => a <= b | _, _ => False end.
(** The calls of a program: messages have a severity. *)
Definition proper_call (c : call) : Prop := match c with Log l _ => severity l <> None | _ => True end.
(** The threshold after a history: that of the last call that names one. *)
Inductive sets_level : call -> level -> Prop :=
| by_level l : l <> unchanged -> sets_level (SetLevel l) l
| by_name s l : named l s -> l <> unchanged -> sets_level (SetLogLevel s) l.
Inductive threshold : list call -> level -> Prop :=
| th_start : threshold [] info
| th_set h c l : sets_level c l -> threshold (h ++ [c]) l
| th_keep h c l : threshold h l -> (forall l', ~ sets_level c l') -> threshold (h ++ [c]) l.
Inductive sink : list call -> nat -> Prop :=
| si_start : sink [] 0
| si_set h k : sink (h ++ [SetSink (Some k)]) k
| si_keep h c k : sink h k -> (forall k', c <> SetSink (Some k')) -> sink (h ++ [c]) k.
Definition heading (l : level) : string :=
  match l with
  | trace => "[TRACE] " | debug => "[DEBUG] " | info => "[INFO] " | warn => "[WARNING] " | error => "[ERROR] "
  | critical => "[CRITICAL] " | off => "" | unchanged => ""
  end.
Definition message (l : level) (args : list string) : string := heading l ++ String.concat "" args ++ nl.
(** All messages of a program with the sinks they go to. *)
Inductive deliveries : list call -> list (nat * string) -> Prop :=
| de_start : deliveries [] []
| de_sent h l args t k d : deliveries h d -> threshold h t -> sink h k -> passes t l -> deliveries (h ++ [Log l args]) (d ++ [(k, message l args)])
| de_not h l args t d : deliveries h d -> threshold h t -> ~ passes t l -> deliveries (h ++ [Log l args]) d
| de_other h c d : deliveries h d -> (forall l args, c <> Log l args) -> deliveries (h ++ [c]) d.
